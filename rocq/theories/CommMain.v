(** Proofs of the properties C16 to C18: commutation of operations and the greedy commutation pass. *)
From Coq Require Import List Bool Arith Lia Permutation FunctionalExtensionality Reals Lra.
From Verif Require Import QComplex QState OpsModel GateSpec QSysSpec CommModel CommSpec CommAlg CommProofs CommSlices CommPass.
Import ListNotations.
Open Scope nat_scope.

Lemma C16_table_pf : forall op qs f port q P, behaves op qs f -> nth_error qs port = Some q ->
  In (port, P) (qubit_commutation op) -> commute f (on q (pauli_mat P)).
Proof.
  intros op qs f port q P B Hq Hin.
  assert (En : entry op port = Some P).
  { clear B. unfold entry. destruct op; simpl in Hin |- *;
      repeat (destruct Hin as [Hin|Hin]; [injection Hin as <- <-; reflexivity|]); destruct Hin. }
  assert (Nd : NoDup qs) by (destruct B; try assumption; (constructor; [intros []|constructor])).
  apply alg_comm with (g := gens op qs) (h := fun r M => r = q /\ M = pauli_mat P).
  - intros r M N (port' & Hp & Em) [-> ->].
    assert (port' = port).
    { apply (proj1 (NoDup_nth_error qs) Nd); [|congruence]. apply nth_error_Some. congruence. }
    subst port'. rewrite En in Em. subst M. reflexivity.
  - apply behaves_alg. assumption.
  - apply alg_gen. auto.
Qed.

Lemma C16_pairs_pf : forall op1 qs1 f1 op2 qs2 f2, behaves op1 qs1 f1 -> behaves op2 qs2 f2 ->
  (forall q i j, nth_error qs1 i = Some q -> nth_error qs2 j = Some q ->
     exists p1 p2, In (i, p1) (qubit_commutation op1) /\ In (j, p2) (qubit_commutation op2) /\ (p1 = p2 \/ p1 = PI_ \/ p2 = PI_)) ->
  commute f1 f2.
Proof.
  intros op1 qs1 f1 op2 qs2 f2 B1 B2 H. eapply compatible_commute; [exact B1|exact B2|].
  assert (En : forall op port P, In (port, P) (qubit_commutation op) -> entry op port = Some P).
  { intros op port P Hin. unfold entry. destruct op; simpl in Hin |- *;
      repeat (destruct Hin as [Hin|Hin]; [injection Hin as <- <-; reflexivity|]); destruct Hin. }
  intros q i j Hi Hj. destruct (H q i j Hi Hj) as (p1 & p2 & I1 & I2 & D). exists p1, p2.
  split; [apply En; assumption|]. split; [apply En; assumption|].
  destruct D as [->|[->| ->]]; [destruct p2|destruct p2|destruct p1]; reflexivity.
Qed.

Lemma C16_commutes_with_pf : forall p1 p2,
  commutes_with p1 p2 = true <-> mmul (pauli_mat p1) (pauli_mat p2) = mmul (pauli_mat p2) (pauli_mat p1).
Proof.
  intros p1 p2. split; [apply pauli_mat_comm|].
  intro H. destruct p1, p2; try reflexivity; exfalso; unfold pauli_mat, MX, MY, MZ, mmul in H; simpl in H; injection H; intros;
    repeat match goal with E : @eq R _ _ |- _ => ring_simplify in E end; lra.
Qed.

Lemma C17_semantics_partial_pf : forall optype n cs sem sl w k, circuit_ok optype n cs -> valuation optype n cs sem ->
  greedy_commutation optype n cs = Some (sl, w, k) ->
  forall L, Permutation L cs -> (forall q, on_wire q L = w q) -> forall psi, run_commands sem L psi = run_commands sem cs psi.
Proof.
  intros optype n cs sem sl w k Ok Val E L P W psi.
  destruct (greedy_ok optype n cs sem Ok Val) as (sl0 & sl' & w' & k' & _ & E' & St0 & (St & Rn & _)).
  rewrite E in E'. injection E' as <- <- <-.
  rewrite (st_ok_run optype n cs sem Ok Val sl w L St P W), Rn. symmetry.
  eapply (st_ok_run optype n cs sem Ok Val sl0 (circuit_wires cs)); [assumption|reflexivity|].
  intro q. rewrite (circuit_wires_on optype n cs Ok). unfold on_wire. f_equal. apply (acts_tket optype n cs Ok). apply incl_refl.
Qed.

Lemma C17_order_exists_partial_pf : forall optype n cs sl w k, circuit_ok optype n cs ->
  (exists sem, valuation optype n cs sem) -> greedy_commutation optype n cs = Some (sl, w, k) ->
  exists L, Permutation L cs /\ forall q, on_wire q L = w q.
Proof.
  intros optype n cs sl w k Ok [sem Val] E.
  destruct (greedy_ok optype n cs sem Ok Val) as (sl0 & sl' & w' & k' & _ & E' & St0 & (St & _)).
  rewrite E in E'. injection E' as <- <- <-. apply (greedy_linear optype n cs Ok sl w St).
Qed.

Lemma C17_never_later_partial_pf : forall optype n cs sl w k, circuit_ok optype n cs ->
  (exists sem, valuation optype n cs sem) -> greedy_commutation optype n cs = Some (sl, w, k) ->
  exists sl0, load_slices optype n cs = Some sl0 /\ length sl = length sl0 /\
    (forall c i q, slot sl i q = Some c -> exists i0 q0, i <= i0 /\ slot sl0 i0 q0 = Some c) /\
    (forall c, In c cs -> optype (c_node c) <> None -> forall q, In (Linear q) (c_inputs c) ->
       exists i, slot sl i q = Some c /\ forall j r, slot sl j r = Some c -> j = i) /\
    (k = 0 -> sl = sl0 /\ forall q, w q = on_wire q cs).
Proof.
  intros optype n cs sl w k Ok [sem Val] E.
  destruct (greedy_ok optype n cs sem Ok Val) as (sl0 & sl' & w' & k' & E0 & E' & St0 & (St & Rn & Ln & Hl & _ & Hz)).
  rewrite E in E'. injection E' as <- <- <-. exists sl0. split; [assumption|]. split; [assumption|]. split; [|split].
  - intros c i q Hs. destruct (Hl c i) as (j & Lj & q0 & Hq); [exists q; exact Hs|]. exists j, q0. auto.
  - intros c Hc Ht q Hq. destruct St as (Fo & Pm & _).
    assert (Hin : In c (lin sl)).
    { eapply Permutation_in; [symmetry; exact Pm|]. apply filter_In. split; [assumption|]. unfold tket. destruct (optype (c_node c)); [reflexivity|congruence]. }
    assert (Un : forall i j r s, slot sl i r = Some c -> slot sl j s = Some c -> i < j -> False).
    { intros i j r s Hi Hj Lt. assert (ND := lin_qcs_nodup optype n cs Ok sl Pm).
      assert (Lj : j < length sl).
      { destruct (le_lt_dec (length sl) j) as [X|]; [|assumption]. unfold slot in Hj. rewrite (nth_overflow sl) in Hj by assumption. destruct s; discriminate. }
      destruct (split2 sl i j Lt Lj) as (A & sd & M & si & T & -> & -> & ->).
      unfold slot in Hi, Hj. rewrite nth_app_len in Hi.
      replace (A ++ sd :: M ++ si :: T) with ((A ++ sd :: M) ++ si :: T) in Hj by (rewrite <- app_assoc; reflexivity).
      replace (length A + 1 + length M) with (length (A ++ sd :: M)) in Hj by (rewrite app_length; simpl; lia). rewrite nth_app_len in Hj.
      assert (I1 : In c (slice_commands sd)) by (apply slice_commands_in; eauto).
      assert (I2 : In c (slice_commands si)) by (apply slice_commands_in; eauto).
      rewrite lin_app in ND. unfold lin in ND. cbn [flat_map] in ND. rewrite flat_map_app in ND. cbn [flat_map] in ND.
      revert ND I1 I2. generalize (flat_map slice_commands A), (slice_commands sd), (flat_map slice_commands M), (slice_commands si), (flat_map slice_commands T).
      clear. intros a b m d t N I1 I2. apply in_split in I1. destruct I1 as (b1 & b2 & ->).
      rewrite <- app_assoc in N. cbn [app] in N. rewrite app_assoc in N. apply NoDup_remove in N. destruct N as [_ N]. apply N.
      apply in_or_app. right. apply in_or_app. right. apply in_or_app. right. apply in_or_app. left. assumption. }
    apply in_lin in Hin. destruct Hin as (i & r & Hs). exists i. split.
    + assert (Os : sl_ok n (nth i sl [])).
      { destruct (le_lt_dec (length sl) i) as [X|X]; [unfold slot in Hs; rewrite (nth_overflow sl) in Hs by assumption; destruct r; discriminate|].
        eapply Forall_forall; [exact Fo|apply nth_In; assumption]. }
      destruct Os as [_ K]. destruct (K r c Hs) as [_ K']. unfold slot. apply K'. apply qubits_in_. assumption.
    + intros j s Hj. destruct (lt_eq_lt_dec i j) as [[X|X]|X]; [exfalso; eapply (Un i j); eassumption|auto|exfalso; eapply (Un j i); eassumption].
  - intro Hk. destruct (Hz Hk) as [Hz1 Hz2]. split; [assumption|]. intro q. rewrite Hz2, (circuit_wires_on optype n cs Ok). unfold on_wire. f_equal. symmetry. apply (acts_tket optype n cs Ok). apply incl_refl.
Qed.

Lemma C18_total_partial_pf : forall optype n cs, circuit_ok optype n cs -> (exists sem, valuation optype n cs sem) ->
  exists r, greedy_commutation optype n cs = Some r.
Proof.
  intros optype n cs Ok [sem Val]. destruct (greedy_ok optype n cs sem Ok Val) as (sl0 & sl & w & k & _ & E & _). eauto.
Qed.

Lemma C18_valuation_exists_pf : forall optype n cs, circuit_ok optype n cs ->
  (forall c op, In c cs -> optype (c_node c) = Some op -> is_quantum op = true \/ In op [Measure; MeasureFree; Reset; QFree]) ->
  exists sem, valuation optype n cs sem.
Proof.
  intros optype n cs [Nd Ok] Hop.
  exists (fun m => match find (fun c => Nat.eqb (c_node c) m) cs with
    | None => fun psi => psi
    | Some c => match optype m with
      | None => fun psi => psi
      | Some op => match op with
        | Measure | MeasureFree => project (hd 0 (qubits c)) true
        | Reset => project_reset (hd 0 (qubits c)) true
        | QFree => fun psi => psi
        | op => op_sem op (qubits c) 0%R
        end
      end
    end).
  intros c Hc.
  assert (F : find (fun c' => Nat.eqb (c_node c') (c_node c)) cs = Some c).
  { clear Ok Hop. induction cs as [|d l IH]; [destruct Hc|]. simpl in *. inversion Nd as [|? ? Nx N']; subst. destruct Hc as [->|Hc].
    - rewrite Nat.eqb_refl. reflexivity.
    - destruct (Nat.eqb_spec (c_node d) (c_node c)) as [E|_]; [exfalso; apply Nx; rewrite E; apply in_map; assumption|auto]. }
  specialize (Hop c). destruct (optype (c_node c)) as [op|] eqn:Eop.
  - intros qs K. rewrite F. assert (Q := qubit_command_qubits _ _ _ _ K). destruct K as (_ & Lq & _ & Nq & _). rewrite Q.
    assert (Single : length qs = 1 -> qs = [hd 0 qs]) by (destruct qs as [|x [|y r]]; simpl; intro; try lia; reflexivity).
    destruct (Hop op Hc eq_refl) as [Hq|Hq].
    + destruct op; try discriminate Hq; apply behaves_gate; assumption.
    + destruct Hq as [<-|[<-|[<-|[<-|[]]]]]; cbn [qubits_in] in Lq; rewrite (Single Lq) at 1; constructor.
  - rewrite F. reflexivity.
Qed.

Lemma C18_alloc_refuted_pf : exists optype n cs, NoDup (map c_node cs) /\ respects_classical cs /\
  (forall c, In c cs -> optype (c_node c) = Some QAlloc) /\ cs <> [] /\ greedy_commutation optype n cs = None.
Proof.
  exists (fun _ => Some QAlloc), 1, [{| c_node := 1; c_inputs := [] |}]. split; [repeat constructor; intros []|]. split; [|split; [|split; [discriminate|reflexivity]]].
  - intros pre c post m p E H. destruct pre as [|x [|y r]]; simpl in E; try discriminate. injection E as <- _. destruct H.
  - intros c [<-|[]]. reflexivity.
Qed.

Lemma C18_fresh_qubit_refuted_pf : exists optype n cs, NoDup (map c_node cs) /\ respects_classical cs /\
  map (fun c => (optype (c_node c), c_inputs c)) cs = [(None, []); (Some H, [Linear n])] /\ greedy_commutation optype n cs = None.
Proof.
  exists (fun m => if Nat.eqb m 2 then Some H else None), 0, [{| c_node := 1; c_inputs := [] |}; {| c_node := 2; c_inputs := [Linear 0] |}].
  split; [repeat constructor; simpl; intuition lia|]. split; [|split; reflexivity].
  intros pre c post m p E Hi. destruct pre as [|x [|y [|z r]]]; simpl in E; try discriminate; injection E; intros; subst; simpl in Hi; intuition discriminate.
Qed.

Lemma C18_opaque_refuted_pf : exists optype n cs sl w k sem L psi,
  NoDup (map c_node cs) /\
  map (fun c => (c_node c, optype (c_node c), c_inputs c)) cs =
    [(1, Some X, [Linear 1]); (2, Some CX, [Linear 0; Linear 1]); (3, None, [Linear 0]); (4, Some Z, [Linear 0])] /\
  (forall c op qs, In c cs -> optype (c_node c) = Some op -> c_inputs c = map Linear qs -> behaves op qs (sem (c_node c))) /\
  (forall phi, sem 3 phi = on 0 MX phi) /\
  greedy_commutation optype n cs = Some (sl, w, k) /\ w 0 = [4; 2; 3] /\
  Permutation L cs /\ (forall q, on_wire q L = w q) /\ run_commands sem L psi <> run_commands sem cs psi.
Proof.
  set (cs := [{| c_node := 1; c_inputs := [Linear 1] |}; {| c_node := 2; c_inputs := [Linear 0; Linear 1] |};
    {| c_node := 3; c_inputs := [Linear 0] |}; {| c_node := 4; c_inputs := [Linear 0] |}]).
  set (optype := fun m : nat => match m with 1 => Some X | 2 => Some CX | 4 => Some Z | _ => None end).
  destruct (greedy_commutation optype 2 cs) as [[[sl w] k]|] eqn:E; [|vm_compute in E; discriminate].
  exists optype, 2, cs, sl, w, k.
  exists (fun m => match m with 1 => op_sem X [1] 0%R | 2 => op_sem CX [0; 1] 0%R | 4 => op_sem Z [0] 0%R | _ => on 0 MX end).
  exists [{| c_node := 1; c_inputs := [Linear 1] |}; {| c_node := 4; c_inputs := [Linear 0] |};
    {| c_node := 2; c_inputs := [Linear 0; Linear 1] |}; {| c_node := 3; c_inputs := [Linear 0] |}].
  exists (fun _ => RtoC 1).
  assert (W : forall q, w q = match q with 0 => [4; 2; 3] | 1 => [1; 2] | _ => [] end).
  { assert (E2 : option_map (fun r => snd (fst r)) (greedy_commutation optype 2 cs) = Some w) by (rewrite E; reflexivity).
    clear E. vm_compute in E2. injection E2 as <-. intros [|[|q]]; reflexivity. }
  split; [repeat constructor; simpl; intuition lia|]. split; [reflexivity|]. split; [|split; [reflexivity|split; [exact E|split; [apply W|split; [|split]]]]].
  - assert (LI : forall a b, map Linear a = map Linear b -> a = b).
    { induction a as [|x a IH]; intros [|y b] Q; try discriminate; [reflexivity|]. simpl in Q. injection Q as -> Q. f_equal. auto. }
    intros c op qs Hc Ho Hi. destruct Hc as [<-|[<-|[<-|[<-|[]]]]]; simpl in Ho; try discriminate; injection Ho as <-; simpl in Hi.
    + apply (LI [1]) in Hi. subst qs. apply behaves_gate; [reflexivity|reflexivity|repeat constructor; intros []].
    + apply (LI [0; 1]) in Hi. subst qs. apply behaves_gate; [reflexivity|reflexivity|repeat constructor; simpl; intuition lia].
    + apply (LI [0]) in Hi. subst qs. apply behaves_gate; [reflexivity|reflexivity|repeat constructor; intros []].
  - apply perm_skip. change (Permutation ([{| c_node := 4; c_inputs := [Linear 0] |}] ++ [{| c_node := 2; c_inputs := [Linear 0; Linear 1] |}; {| c_node := 3; c_inputs := [Linear 0] |}])
      ([{| c_node := 2; c_inputs := [Linear 0; Linear 1] |}; {| c_node := 3; c_inputs := [Linear 0] |}] ++ [{| c_node := 4; c_inputs := [Linear 0] |}])).
    apply Permutation_app_comm.
  - intros q. rewrite W. destruct q as [|[|q]]; reflexivity.
  - intro Eq. apply (f_equal (fun f : state => f (fun _ => false))) in Eq. revert Eq.
    unfold run_commands, steps, op_sem, on, CU, MX. simpl. intro Eq.
    unfold upd in Eq. simpl in Eq.
    apply (f_equal fst) in Eq. simpl in Eq. lra.
Qed.

Lemma C18_classical_cycle_refuted_pf : exists optype n cs sl w k,
  circuit_ok optype n cs /\ respects_classical cs /\ (exists sem, valuation optype n cs sem) /\
  greedy_commutation optype n cs = Some (sl, w, k) /\
  forall L, Permutation L cs -> (forall q, on_wire q L = w q) -> ~ respects_classical L.
Proof.
  set (cs := [{| c_node := 1; c_inputs := [Linear 1] |}; {| c_node := 2; c_inputs := [Linear 0; Linear 1] |};
    {| c_node := 3; c_inputs := [Linear 1] |}; {| c_node := 4; c_inputs := [UWire 3 1] |}; {| c_node := 5; c_inputs := [Linear 0; UWire 4 0] |}]).
  set (optype := fun m : nat => match m with 1 => Some X | 2 => Some CX | 3 => Some Measure | 5 => Some Rz | _ => None end).
  assert (Ok : circuit_ok optype 2 cs).
  { split; [repeat constructor; simpl; intuition lia|]. intros c Hc. unfold command_ok.
    destruct Hc as [<-|[<-|[<-|[<-|[<-|[]]]]]]; simpl.
    - exists [1]. split; [exists []; reflexivity|]. split; [reflexivity|split; [discriminate|split; [repeat (constructor; [simpl; intuition lia|]); constructor|intros q Hq; simpl in Hq; lia]]].
    - exists [0; 1]. split; [exists []; reflexivity|]. split; [reflexivity|split; [discriminate|split; [repeat (constructor; [simpl; intuition lia|]); constructor|intros q Hq; simpl in Hq; lia]]].
    - exists [1]. split; [exists []; reflexivity|]. split; [reflexivity|split; [discriminate|split; [repeat (constructor; [simpl; intuition lia|]); constructor|intros q Hq; simpl in Hq; lia]]].
    - intros q [K|[]]. discriminate.
    - exists [0]. split; [exists [(4, 0)]; reflexivity|]. split; [reflexivity|split; [discriminate|split; [repeat (constructor; [simpl; intuition lia|]); constructor|intros q Hq; simpl in Hq; lia]]]. }
  destruct (greedy_commutation optype 2 cs) as [[[sl w] k]|] eqn:E; [|vm_compute in E; discriminate].
  exists optype, 2, cs, sl, w, k. split; [exact Ok|]. split; [|split; [|split; [exact E|]]].
  - intros pre c post m p Ec Hi. unfold cs in Ec.
    destruct pre as [|x1 [|x2 [|x3 [|x4 [|x5 r]]]]]; simpl in Ec; try discriminate; injection Ec; intros; subst; simpl in Hi; try (intuition discriminate).
    + destruct Hi as [Hi|[]]. injection Hi as <- <-. simpl. tauto.
    + destruct Hi as [Hi|[Hi|[]]]; [discriminate|]. injection Hi as <- <-. simpl. tauto.
    + destruct r; discriminate.
  - apply (C18_valuation_exists_pf optype 2 cs Ok). intros c op Hc Ho. unfold cs in Hc.
    destruct Hc as [<-|[<-|[<-|[<-|[<-|[]]]]]]; simpl in Ho; try discriminate; injection Ho as <-; simpl; auto.
  - assert (W : w 0 = [5; 2] /\ w 1 = [1; 2; 3]).
    { assert (E2 : option_map (fun r => snd (fst r)) (greedy_commutation optype 2 cs) = Some w) by (rewrite E; reflexivity).
      clear E. vm_compute in E2. injection E2 as <-. split; reflexivity. }
    intros L P W' R.
    (* m comes before m' in L *)
    set (nl := map c_node L).
    assert (Nd : NoDup nl).
    { destruct Ok as [N _]. eapply Permutation_NoDup; [apply Permutation_map; symmetry; exact P|exact N]. }
    set (bef := fun a b => exists x y z, nl = x ++ a :: y ++ b :: z).
    assert (Filt : forall l a b r q, map c_node (filter (acts q) l) = a ++ b :: r -> exists x y, map c_node l = x ++ b :: y /\ (forall k, In k a -> In k x)).
    { clear. intros l a b r q. revert a. induction l as [|c l IH]; intros a H; [destruct a; discriminate|]. simpl in H. destruct (acts q c).
      - destruct a as [|a0 a]; simpl in H.
        + injection H as <- H. exists [], (map c_node l). split; [reflexivity|]. intros k [].
        + injection H as <- H. destruct (IH a H) as (x & y & Ex & Hx). exists (c_node c :: x), y. split; [simpl; rewrite Ex; reflexivity|].
          intros k [->|Hk]; [left; reflexivity|right; auto].
      - destruct (IH a H) as (x & y & Ex & Hx). exists (c_node c :: x), y. split; [simpl; rewrite Ex; reflexivity|]. intros k Hk. right. auto. }
    assert (Tr : forall a b, (exists x y, nl = x ++ b :: y /\ In a x) -> bef a b).
    { intros a b (x & y & Ex & Ha). apply in_split in Ha. destruct Ha as (x1 & x2 & ->). exists x1, x2, y. rewrite Ex, <- app_assoc. reflexivity. }
    assert (Lt : forall a b, bef a b -> forall x1 y1 x2 y2, nl = x1 ++ a :: y1 -> nl = x2 ++ b :: y2 -> length x1 < length x2).
    { intros a b (x & y & z & Ex) x1 y1 x2 y2 E1' E2'.
      assert (Uq : forall (v : nat) p1 s1 p2 s2, nl = p1 ++ v :: s1 -> nl = p2 ++ v :: s2 -> length p1 = length p2).
      { intros v p1 s1 p2 s2 G1 G2. apply (proj1 (NoDup_nth_error nl) Nd).
        - rewrite G1, app_length. simpl. lia.
        - rewrite G1 at 1. rewrite nth_error_app2, Nat.sub_diag by lia. rewrite G2, nth_error_app2, Nat.sub_diag by lia. reflexivity. }
      rewrite (Uq a x1 y1 x (y ++ b :: z) E1' Ex). rewrite (Uq b x2 y2 (x ++ a :: y) z E2') by (rewrite Ex, <- app_assoc; reflexivity).
      rewrite app_length. simpl. lia. }
    destruct W as [W0 W1]. rewrite <- W' in W0, W1.
    assert (B52 : bef 5 2).
    { apply Tr. destruct (Filt L [5] 2 [] 0 W0) as (x & y & Ex & Hx). exists x, y. split; [exact Ex|]. apply Hx. left. reflexivity. }
    assert (B23 : bef 2 3).
    { apply Tr. destruct (Filt L [1; 2] 3 [] 1 W1) as (x & y & Ex & Hx). exists x, y. split; [exact Ex|]. apply Hx. right. left. reflexivity. }
    assert (Cls : forall c m p, In c cs -> In (UWire m p) (c_inputs c) -> bef m (c_node c)).
    { intros c m p Hc Hi. assert (Hl : In c L) by (eapply Permutation_in; [symmetry; exact P|exact Hc]). apply in_split in Hl. destruct Hl as (pre & post & El).
      apply Tr. exists (map c_node pre), (map c_node post). split; [unfold nl; rewrite El, map_app; reflexivity|]. eapply R; eassumption. }
    assert (B34 : bef 3 4) by (apply (Cls {| c_node := 4; c_inputs := [UWire 3 1] |} 3 1); [unfold cs; simpl; tauto|left; reflexivity]).
    assert (B45 : bef 4 5) by (apply (Cls {| c_node := 5; c_inputs := [Linear 0; UWire 4 0] |} 4 0); [unfold cs; simpl; tauto|right; left; reflexivity]).
    assert (Pos : forall a b, bef a b -> exists x y, nl = x ++ a :: y) by (intros a b (x & y & z & Ex); eauto).
    destruct (Pos _ _ B52) as (x5 & y5 & F5). destruct (Pos _ _ B23) as (x2 & y2 & F2). destruct (Pos _ _ B34) as (x3 & y3 & F3). destruct (Pos _ _ B45) as (x4 & y4 & F4).
    pose proof (Lt _ _ B52 _ _ _ _ F5 F2). pose proof (Lt _ _ B23 _ _ _ _ F2 F3). pose proof (Lt _ _ B34 _ _ _ _ F3 F4). pose proof (Lt _ _ B45 _ _ _ _ F4 F5). lia.
Qed.

