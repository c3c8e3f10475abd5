(** The whole pass: loading the slices, the moves, and the resulting wires. *)
From Coq Require Import List Bool Arith Lia Permutation FunctionalExtensionality.
From Verif Require Import QComplex QState OpsModel GateSpec QSysSpec CommModel CommSpec CommAlg CommProofs CommSlices.
Import ListNotations.
Open Scope nat_scope.
Local Notation S := Datatypes.S.

Lemma qubits_linear : forall qs, flat_map (fun u => match u with Linear q => [q] | UWire _ _ => [] end) (map Linear qs) = qs.
Proof. induction qs; simpl; congruence. Qed.
Lemma qubits_wires : forall ws : list (nat * nat),
  flat_map (fun u => match u with Linear q => [q] | UWire _ _ => [] end) (map (fun w => UWire (fst w) (snd w)) ws) = [].
Proof. induction ws; simpl; auto. Qed.
Lemma qubit_command_qubits : forall n c op qs, qubit_command n c op qs -> qubits c = qs.
Proof. intros n c op qs [[ws E] _]. unfold qubits. rewrite E, flat_map_app, qubits_linear, qubits_wires, app_nil_r. reflexivity. Qed.
Lemma position_linear : forall qs q i r, NoDup qs -> nth_error qs i = Some q ->
  position (fun u => if unit_eq_dec u (Linear q) then true else false) (map Linear qs ++ r) = Some i.
Proof.
  induction qs as [|x qs IH]; intros q i r N H; [destruct i; discriminate|]. inversion N; subst. cbn [map app position].
  destruct (unit_eq_dec (Linear x) (Linear q)) as [E|E].
  - injection E as ->. destruct i as [|i]; [reflexivity|]. simpl in H. apply nth_error_In in H. tauto.
  - destruct i as [|i]; [simpl in H; congruence|]. simpl in H. rewrite (IH q i) by assumption. reflexivity.
Qed.
Lemma qubit_command_port : forall n c op qs q i, qubit_command n c op qs -> nth_error qs i = Some q -> port_of_qb c q = Some i.
Proof. intros n c op qs q i [[ws E] (_ & _ & N & _)] H. unfold port_of_qb. rewrite E. apply position_linear; assumption. Qed.

Section Pass.
Variable optype : nat -> option TketOp.
Variable n : nat.
Variable cs : list com.
Variable sem : nat -> state -> state.
Hypothesis ok : circuit_ok optype n cs.
Hypothesis val : valuation optype n cs sem.

Definition tket (c : com) : bool := match optype (c_node c) with Some _ => true | None => false end.
Definition qcs : list com := filter tket cs.

Lemma cs_nodup : NoDup cs.
Proof. destruct ok as [H _]. eapply NoDup_map_inv. exact H. Qed.
Lemma node_inj : forall c d, In c cs -> In d cs -> c_node c = c_node d -> c = d.
Proof.
  destruct ok as [H _]. revert H. clear. induction cs as [|x l IH]; intros N c d Hc Hd E; [destruct Hc|].
  simpl in N. inversion N as [|? ? Nx N']; subst. destruct Hc as [->|Hc], Hd as [->|Hd]; auto.
  - exfalso. apply Nx. rewrite E. apply in_map. assumption.
  - exfalso. apply Nx. rewrite <- E. apply in_map. assumption.
Qed.
Lemma qcs_cs : forall c, In c qcs -> In c cs.
Proof. intros c H. apply filter_In in H. apply H. Qed.
Lemma qcs_nodup : NoDup qcs.
Proof. apply NoDup_filter, cs_nodup. Qed.
Lemma qcs_spec : forall c, In c qcs -> exists op, optype (c_node c) = Some op /\ qubit_command n c op (qubits c) /\ behaves op (qubits c) (sem (c_node c)).
Proof.
  intros c H. apply filter_In in H. destruct H as [H T]. unfold tket in T. destruct ok as [_ K]. specialize (K c H). specialize (val c H).
  unfold command_ok in K. destruct (optype (c_node c)) as [op|] eqn:E; [|discriminate].
  destruct K as [qs K]. assert (Q := qubit_command_qubits _ _ _ _ K). subst qs. exists op. auto.
Qed.
Lemma qcs_qubits : forall c, In c qcs -> qubits c <> [] /\ NoDup (qubits c) /\ forall q, In q (qubits c) -> q < n.
Proof. intros c H. destruct (qcs_spec c H) as (op & _ & (_ & _ & A & B & D) & _). auto. Qed.
Lemma qcs_acts : forall c, In c qcs -> exists q, acts q c = true.
Proof.
  intros c H. destruct (qcs_qubits c H) as (A & _). destruct (qubits c) as [|q r] eqn:E; [congruence|]. exists q. apply acts_qubits. rewrite E. left. reflexivity.
Qed.

Lemma com_commute : forall c d, In c qcs -> In d qcs ->
  (forall q, In q (qubits c) -> In q (qubits d) -> exists p p', entry_on optype c q = Some p /\ entry_on optype d q = Some p' /\ commutes_with p p' = true) ->
  commute (nodesem sem c) (nodesem sem d).
Proof.
  intros c d Hc Hd H. destruct (qcs_spec c Hc) as (op1 & E1' & K1 & B1). destruct (qcs_spec d Hd) as (op2 & E2' & K2 & B2).
  unfold nodesem. eapply compatible_commute; [exact B1|exact B2|]. intros q i j Hi Hj.
  destruct (H q (nth_error_In _ _ Hi) (nth_error_In _ _ Hj)) as (p & p' & Ep & Ep' & Cm). unfold entry_on in Ep, Ep'.
  rewrite (qubit_command_port _ _ _ _ _ _ K1 Hi), E1' in Ep. rewrite (qubit_command_port _ _ _ _ _ _ K2 Hj), E2' in Ep'.
  exists p, p'. auto.
Qed.
Lemma disj_commute : forall c d, In c qcs -> In d qcs -> disj c d -> commute (nodesem sem c) (nodesem sem d).
Proof. intros c d Hc Hd D. apply com_commute; auto. intros q A B. exfalso. apply (D q); apply acts_qubits; assumption. Qed.

(** ** Loading the slices *)
Definition loaded (done : list com) (st : list slice * list nat) : Prop :=
  let (sl, free) := st in
  Forall (sl_ok n) sl /\ Permutation (lin sl) done /\ (forall q, col sl q = filter (acts q) done) /\
  length free = n /\ (forall q, q < n -> nth q free 0 <= length sl) /\
  (forall q i, q < n -> nth q free 0 <= i -> slot sl i q = None).

Lemma free_slice_spec : forall free qs, qs <> [] -> (forall q, In q qs -> q < length free) ->
  exists f, free_slice free qs = Some f /\ (forall q, In q qs -> nth q free 0 <= f) /\ (exists q, In q qs /\ nth q free 0 = f).
Proof.
  induction qs as [|q qs IH]; intros N H; [congruence|].
  assert (Eq : nth_error free q = Some (nth q free 0)) by (apply nth_error_nth'; apply H; left; reflexivity).
  destruct qs as [|r qs].
  - exists (nth q free 0). split; [exact Eq|]. split; [intros x [->|[]]; lia|]. exists q. split; [left|]; reflexivity.
  - destruct IH as (f & E & A & x & Hx & X); [discriminate|intros; apply H; right; assumption|].
    exists (Nat.max (nth q free 0) f). split; [|split].
    + cbn [free_slice]. cbn [free_slice] in E. rewrite Eq, E. reflexivity.
    + intros y [->|Hy]; [lia|]. specialize (A y Hy). lia.
    + destruct (Nat.max_spec (nth q free 0) f) as [[_ ->]|[_ ->]].
      * exists x. split; [right|]; assumption.
      * exists q. split; [left|]; reflexivity.
Qed.
Lemma fill_free : forall qs f free r, (forall q, In q qs -> q < length free) ->
  nth r (fold_left (fun fr q => set_nth q f fr) qs free) 0 = if in_dec Nat.eq_dec r qs then f else nth r free 0.
Proof.
  induction qs as [|q qs IH]; intros f free r H; [reflexivity|]. simpl fold_left.
  rewrite IH by (intros; rewrite set_nth_length; apply H; right; assumption).
  destruct (in_dec Nat.eq_dec r qs) as [I|I]; destruct (in_dec Nat.eq_dec r (q :: qs)) as [I'|I'].
  - reflexivity.
  - exfalso. apply I'. right. assumption.
  - destruct I' as [->|I']; [|tauto]. apply set_nth_same. apply H. left. reflexivity.
  - apply set_nth_other. intros ->. apply I'. left. reflexivity.
Qed.
Lemma fill_free_length : forall qs f (free : list nat), length (fold_left (fun fr q => set_nth q f fr) qs free) = length free.
Proof. induction qs; intros; simpl; [reflexivity|]. rewrite IHqs. apply set_nth_length. Qed.

Lemma sl_ok_empty : sl_ok n (repeat None n).
Proof. split; [apply repeat_length|]. intros q c E. exfalso. rewrite nth_repeat in E. discriminate. Qed.
Lemma cmds_empty : slice_commands (repeat None n) = [].
Proof. destruct (slice_commands (repeat None n)) as [|c l] eqn:E; [reflexivity|]. assert (X : In c (slice_commands (repeat None n))) by (rewrite E; left; reflexivity).
  apply slice_commands_in in X. destruct X as [q X]. rewrite nth_repeat in X. discriminate. Qed.

Lemma load_step_ok : forall done st c, loaded done st -> In c qcs -> exists st', load_step optype n st c = Some st' /\ loaded (done ++ [c]) st'.
Proof.
  intros done [sl free] c (Fo & Pm & Cl & Lf & Fr & Em) Hc. unfold load_step.
  destruct (qcs_spec c Hc) as (op & Eop & _ & _). rewrite Eop. destruct (qcs_qubits c Hc) as (Qn & Qd & Ql).
  destruct (free_slice_spec free (qubits c)) as (f & Ef & Fm & q0 & Hq0 & Fq0); [assumption|rewrite Lf; assumption|]. rewrite Ef. cbv zeta.
  assert (Lfl : f <= length sl) by (rewrite <- Fq0; apply Fr, Ql; assumption).
  set (sl1 := if length sl <=? f then sl ++ [repeat None n] else sl).
  assert (H1 : f < length sl1 /\ Forall (sl_ok n) sl1 /\ lin sl1 = lin sl /\ (forall q, col sl1 q = col sl q) /\
               (forall q i, q < n -> nth q free 0 <= i -> slot sl1 i q = None) /\ length sl <= length sl1).
  { unfold sl1. destruct (Nat.leb_spec (length sl) f) as [L|L].
    - repeat split.
      + rewrite app_length. simpl. lia.
      + apply Forall_app. split; [assumption|]. constructor; [apply sl_ok_empty|constructor].
      + rewrite lin_app. unfold lin at 2. simpl. rewrite cmds_empty. apply app_nil_r.
      + intro q. rewrite col_app. unfold col at 2. simpl. rewrite nth_repeat. apply app_nil_r.
      + intros q i Hq Hi. unfold slot. destruct (le_lt_dec (length sl) i) as [K|K].
        * rewrite app_nth2 by assumption. destruct (i - length sl) as [|[|k]]; simpl; [apply nth_repeat|destruct q; reflexivity|destruct q; reflexivity].
        * rewrite app_nth1 by assumption. apply (Em q i); assumption.
      + rewrite app_length. lia.
    - repeat split; auto. }
  destruct H1 as (Lf1 & Fo1 & Li1 & Co1 & Em1 & Ll1).
  destruct (split1 _ sl1 f Lf1) as (X & s & Y & Es & LX).
  rewrite Es. clear Fq0. clearbody sl1. subst f. assert (En : nth_error (X ++ s :: Y) (length X) = Some s) by (rewrite nth_error_app2, Nat.sub_diag by lia; reflexivity).
  rewrite En. rewrite set_nth_app. eexists. split; [reflexivity|].
  assert (Ss : forall q, slot sl1 (length X) q = nth q s None) by (intro; unfold slot; rewrite Es, nth_app_len; reflexivity).
  rewrite Es in Fo1. apply Forall_app in Fo1. destruct Fo1 as [FX FY]. assert (Fs := Forall_inv FY). assert (FY' := Forall_inv_tail FY).
  destruct (add_ok n s c Fs) as [Ao Ap]; [|assumption|].
  { intros q Hq. split; [apply Ql; assumption|]. rewrite <- Ss. apply Em1; [apply Ql; assumption|]. apply Fm. assumption. }
  assert (AN : forall q, nth q (add_to_slice s c) None = if in_dec Nat.eq_dec q (qubits c) then Some c else nth q s None).
  { intro q. apply fill_nth. destruct Fs as [-> _]. assumption. }
  assert (ColY : forall q, In q (qubits c) -> col (s :: Y) q = []).
  { intros q Hq. assert (Z : forall k, nth q (nth k (s :: Y) []) None = None).
    { intro k. specialize (Em1 q (length X + k) (Ql q Hq)). unfold slot in Em1. rewrite Es in Em1. rewrite app_nth2 in Em1 by lia.
      replace (length X + k - length X) with k in Em1 by lia. apply Em1. specialize (Fm q Hq). lia. }
    clear -Z. induction (s :: Y) as [|x l IH]; [reflexivity|]. unfold col in *. cbn [flat_map]. assert (Z0 := Z 0). cbn [nth] in Z0. rewrite Z0. apply IH. intro k. apply (Z (S k)). }
  repeat split.
  - apply Forall_app. split; [assumption|]. constructor; assumption.
  - rewrite <- Li1, Es, !lin_app in *. unfold lin at 2. cbn [flat_map]. fold (lin Y). unfold lin at 2 in Pm. cbn [flat_map] in Pm. fold (lin Y) in Pm.
    rewrite Ap. rewrite <- Pm. rewrite Permutation_app_comm with (l' := [c]). simpl. symmetry. rewrite <- Permutation_middle. reflexivity.
  - intro q. rewrite filter_app_, <- Cl, <- Co1, Es, !col_app. simpl filter. destruct (acts q c) eqn:Aq.
    + apply acts_qubits in Aq. assert (ColY' := ColY q Aq). unfold col in ColY'. cbn [flat_map] in ColY'. apply app_eq_nil in ColY'. destruct ColY' as [C1 C2].
      unfold col at 2 4. cbn [flat_map]. rewrite AN, C1. destruct (in_dec Nat.eq_dec q (qubits c)) as [_|Z]; [|tauto].
      simpl. rewrite C2, app_nil_r. reflexivity.
    + rewrite app_nil_r. f_equal. unfold col. cbn [flat_map]. rewrite AN. destruct (in_dec Nat.eq_dec q (qubits c)) as [Z|_]; [|reflexivity].
      apply acts_qubits in Z. congruence.
  - rewrite fill_free_length. assumption.
  - intros q Hq. rewrite fill_free by (rewrite Lf; assumption). rewrite app_length. simpl. rewrite Es, app_length in *. simpl in *.
    destruct (in_dec Nat.eq_dec q (qubits c)); [lia|]. specialize (Fr q Hq). lia.
  - intros q i Hq Hi. rewrite fill_free in Hi by (rewrite Lf; assumption). unfold slot. destruct (Nat.eq_dec i (length X)) as [->|Ne].
    + rewrite nth_app_len, AN. destruct (in_dec Nat.eq_dec q (qubits c)); [lia|]. rewrite <- Ss. apply Em1; assumption.
    + assert (Z : nth i (X ++ add_to_slice s c :: Y) [] = nth i sl1 []).
      { rewrite Es. destruct (le_lt_dec (length X) i); [|rewrite !app_nth1 by lia; reflexivity].
        rewrite !app_nth2 by lia. destruct (i - length X) eqn:D; [lia|]. reflexivity. }
      rewrite Z. apply (Em1 q i); [assumption|]. destruct (in_dec Nat.eq_dec q (qubits c)) as [J|]; [|assumption]. specialize (Fm q J). lia.
Qed.

Lemma load_steps_ok : forall todo done st, loaded done st -> (forall c, In c todo -> In c cs) ->
  exists st', load_steps optype n st todo = Some st' /\ loaded (done ++ filter tket todo) st'.
Proof.
  induction todo as [|c todo IH]; intros done st L H.
  - exists st. split; [reflexivity|]. rewrite app_nil_r. assumption.
  - cbn [load_steps filter]. destruct (tket c) eqn:T.
    + destruct (load_step_ok done st c L) as (st1 & E1' & L1); [apply filter_In; split; [apply H; left; reflexivity|assumption]|].
      rewrite E1'. destruct (IH (done ++ [c]) st1 L1) as (st2 & E2' & L2); [intros; apply H; right; assumption|].
      exists st2. split; [assumption|]. rewrite <- app_assoc in L2. exact L2.
    + unfold load_step. destruct st as [sl free]. unfold tket in T. destruct (optype (c_node c)); [discriminate|]. apply IH; [assumption|].
      intros; apply H; right; assumption.
Qed.
Lemma load_ok : exists sl, load_slices optype n cs = Some sl /\ Forall (sl_ok n) sl /\ Permutation (lin sl) qcs /\ forall q, col sl q = filter (acts q) qcs.
Proof.
  destruct (load_steps_ok cs [] ([], repeat 0 n)) as ([sl free] & E & A & B & D & _).
  - simpl. repeat split; auto.
    + apply repeat_length.
    + intros q Hq. rewrite nth_repeat. lia.
    + intros q i _ _. unfold slot. destruct i, q; reflexivity.
  - auto.
  - exists sl. unfold load_slices. rewrite E. auto.
Qed.

(** ** Moves *)
Definition st_ok (sl : list slice) (w : wires) : Prop :=
  Forall (sl_ok n) sl /\ Permutation (lin sl) qcs /\ forall q, w q = map c_node (col sl q).
Definition held (sl : list slice) (c : com) (i : nat) : Prop := exists q, slot sl i q = Some c.

Lemma incl_lin : forall sl, Permutation (lin sl) qcs -> incl (lin sl) qcs.
Proof. intros sl P c H. eapply Permutation_in; eassumption. Qed.

Lemma split2 : forall (sl : list slice) d i, d < i -> i < length sl ->
  exists A sd M si R, sl = A ++ sd :: M ++ si :: R /\ d = length A /\ i = length A + 1 + length M.
Proof.
  intros sl d i H L. destruct (split1 _ sl i L) as (X & si & R & -> & LX). destruct (split1 _ X d) as (A & sd & M & -> & LA); [lia|].
  exists A, sd, M, si, R. rewrite <- app_assoc. repeat split; auto. rewrite <- LX, app_length. simpl. lia.
Qed.
Lemma between_split : forall A (sd : slice) M si R, between (A ++ sd :: M ++ si :: R) (S (length A)) (S (length A + 1 + length M)) = M ++ [si].
Proof.
  intros. unfold between. replace (A ++ sd :: M ++ si :: R) with ((A ++ sd :: M ++ [si]) ++ R) by (rewrite <- app_assoc; cbn [app]; rewrite <- app_assoc; reflexivity).
  rewrite firstn_app. assert (L : length (A ++ sd :: M ++ [si]) = S (length A + 1 + length M)) by (rewrite app_length; simpl; rewrite app_length; simpl; lia).
  rewrite <- L, Nat.sub_diag, firstn_all. simpl firstn. rewrite app_nil_r.
  replace (A ++ sd :: M ++ [si]) with ((A ++ [sd]) ++ M ++ [si]) by (rewrite <- app_assoc; reflexivity).
  rewrite skipn_app. assert (LA : length (A ++ [sd]) = S (length A)) by (rewrite app_length; simpl; lia).
  rewrite <- LA, skipn_all, Nat.sub_diag. reflexivity.
Qed.

Lemma NoDup_mid : forall A (l m : list A) x r, NoDup (l ++ x :: m ++ r) -> NoDup (l ++ m ++ x :: r).
Proof.
  intros A l m x r N. eapply Permutation_NoDup; [|exact N]. apply Permutation_app_head. apply Permutation_middle.
Qed.

Lemma lin_qcs_nodup : forall sl, Permutation (lin sl) qcs -> NoDup (lin sl).
Proof. intros sl P. eapply Permutation_NoDup; [symmetry; exact P|apply qcs_nodup]. Qed.

Lemma move_ok : forall sl w i c d nn, st_ok sl w -> held sl c i -> available_slice optype c sl i [] None = Some (d, nn) ->
  d < i /\ exists w', pull_forward c nn (qubits c) w = Some w' /\ st_ok (move_slots c sl i d) w' /\
  (forall psi, run_commands sem (lin (move_slots c sl i d)) psi = run_commands sem (lin sl) psi) /\
  length (move_slots c sl i d) = length sl /\
  (forall c', c' <> c -> forall j, held sl c' j <-> held (move_slots c sl i d) c' j) /\ held (move_slots c sl i d) c d /\
  (forall j, held (move_slots c sl i d) c j -> j <= i).
Proof.
  intros sl w i c d nn (Fo & Pm & W) [q0 Hq0] Av.
  assert (Li : i < length sl).
  { destruct (le_lt_dec (length sl) i) as [L|]; [|assumption]. unfold slot in Hq0. rewrite (nth_overflow sl) in Hq0 by assumption. destruct q0; discriminate. }
  assert (Hc : In c qcs) by (eapply incl_lin; [exact Pm|]; apply in_lin; eauto).
  destruct (qcs_qubits c Hc) as (Qn & Qd & Ql).
  assert (G : good optype c sl i (d, nn)).
  { pose proof (available_good optype c sl i i [] None (le_n i) Li I) as G. rewrite Av in G. apply G.
    - unfold between. rewrite skipn_all2; [constructor|]. rewrite firstn_length. lia.
    - intros q Hq. unfold between. rewrite skipn_all2; [reflexivity|]. rewrite firstn_length. lia. }
  destruct G as (Gd & Ge & Gp & Gn). simpl fst in *. simpl snd in *.
  assert (Ok_i : sl_ok n (nth i sl [])) by (eapply Forall_forall; [exact Fo|apply nth_In; assumption]).
  destruct Ok_i as [_ Ki]. destruct (Ki q0 c Hq0) as [Iq0 Kc].
  assert (Hd : d < i).
  { destruct (Nat.eq_dec d i) as [->|]; [|lia]. specialize (Ge q0 Iq0). unfold slot in Hq0. congruence. }
  split; [assumption|].
  destruct (split2 sl d i Hd Li) as (A & sd & M & si & R & -> & -> & ->).
  replace (nth (length A + 1 + length M) (A ++ sd :: M ++ si :: R) []) with si in *.
  2:{ replace (A ++ sd :: M ++ si :: R) with ((A ++ sd :: M) ++ si :: R) by (rewrite <- app_assoc; reflexivity).
      replace (length A + 1 + length M) with (length (A ++ sd :: M)) by (rewrite app_length; simpl; lia). symmetry. apply nth_app_len. }
  rewrite nth_app_len in Ge. rewrite between_split in Gp, Gn. rewrite move_slots_split by assumption.
  apply Forall_app in Fo. destruct Fo as [FA Fo]. inversion Fo as [|? ? Fsd Fo']; subst. apply Forall_app in Fo'. destruct Fo' as [FM Fo']. inversion Fo' as [|? ? Fsi FR]; subst.
  destruct (add_ok n sd c Fsd) as [Ao Ap]; [intros q Hq; split; [apply Ql|apply Ge]; assumption|assumption|].
  destruct (clear_ok n si c q0 Fsi (Kc q0 Iq0)) as [Co Cp].
  set (si' := fill (qubits c) None si) in *.
  change (list (option com)) with slice in *.
  assert (AN : forall q, nth q (add_to_slice sd c) None = if in_dec Nat.eq_dec q (qubits c) then Some c else nth q sd None).
  { intro q. apply fill_nth. destruct Fsd as [-> _]. assumption. }
  assert (CN : forall q, nth q si' None = if in_dec Nat.eq_dec q (qubits c) then None else nth q si None).
  { intro q. apply fill_nth. destruct Fsi as [-> _]. assumption. }
  (* the columns *)
  assert (Col0 : forall q, In q (qubits c) -> col (A ++ sd :: M ++ si :: R) q = col A q ++ col M q ++ c :: col R q).
  { intros q Hq. rewrite col_app. f_equal. unfold col at 1. cbn [flat_map]. rewrite (Ge q Hq). cbn [olist app]. fold (col (M ++ si :: R) q). rewrite col_app. f_equal.
    unfold col at 1. cbn [flat_map]. rewrite (Kc q Hq). reflexivity. }
  assert (Col1 : forall q, In q (qubits c) -> col (A ++ add_to_slice sd c :: M ++ si' :: R) q = col A q ++ c :: col M q ++ col R q).
  { intros q Hq. rewrite col_app. f_equal. unfold col at 1. cbn [flat_map]. rewrite AN. destruct in_dec as [_|X]; [|tauto]. cbn [olist app]. f_equal. fold (col (M ++ si' :: R) q). rewrite col_app. f_equal.
    unfold col at 1. cbn [flat_map]. rewrite CN. destruct in_dec as [_|X]; [|tauto]. reflexivity. }
  assert (Col2 : forall q, ~ In q (qubits c) -> col (A ++ add_to_slice sd c :: M ++ si' :: R) q = col (A ++ sd :: M ++ si :: R) q).
  { intros q Hq. rewrite !col_app. f_equal. unfold col. cbn [flat_map]. rewrite AN. destruct in_dec as [X|_]; [tauto|]. f_equal. rewrite !flat_map_app. f_equal.
    cbn [flat_map]. rewrite CN. destruct in_dec as [X|_]; [tauto|]. reflexivity. }
  assert (P' : Permutation (lin (A ++ add_to_slice sd c :: M ++ si' :: R)) (lin (A ++ sd :: M ++ si :: R))).
  { rewrite !lin_app. apply Permutation_app_head. unfold lin. cbn [flat_map]. rewrite !flat_map_app. cbn [flat_map]. rewrite Ap, Cp. cbn [app].
    rewrite !app_assoc. rewrite <- !app_assoc. cbn [app]. rewrite !app_assoc.
    transitivity (c :: (slice_commands sd ++ flat_map slice_commands M) ++ slice_commands si' ++ flat_map slice_commands R).
    - rewrite <- !app_assoc. reflexivity.
    - apply Permutation_middle. }
  (* NoDup of the wires *)
  assert (NDw : forall q, NoDup (map c_node (col (A ++ sd :: M ++ si :: R) q))).
  { intro q. rewrite <- (lin_wire n) by (apply Forall_app; split; [|constructor; [|apply Forall_app; split; [|constructor]]]; assumption).
    assert (ND : NoDup (map c_node (lin (A ++ sd :: M ++ si :: R)))).
    { eapply Permutation_NoDup; [apply Permutation_map; symmetry; exact Pm|]. unfold qcs. destruct ok as [Nn _]. revert Nn. clear.
      induction cs as [|x l IH]; intro N; [constructor|]. simpl in *. inversion N as [|? ? Nx N']; subst. destruct (tket x); [|apply IH; assumption].
      simpl. constructor; [|apply IH; assumption]. intro H. apply Nx. apply in_map_iff in H. destruct H as (y & E & Hy). apply filter_In in Hy. rewrite <- E. apply in_map. apply Hy. }
    revert ND. clear. induction (lin (A ++ sd :: M ++ si :: R)) as [|x l IH]; intro N; [constructor|]. simpl in *. inversion N as [|? ? Nx N']; subst. destruct (acts q x); [|apply IH; assumption].
    simpl. constructor; [|apply IH; assumption]. intro H. apply Nx. apply in_map_iff in H. destruct H as (y & E & Hy). apply filter_In in Hy. rewrite <- E. apply in_map. apply Hy. }
  assert (Ok' : Forall (sl_ok n) (A ++ add_to_slice sd c :: M ++ si' :: R)).
  { apply Forall_app; split; [assumption|constructor; [assumption|apply Forall_app; split; [assumption|constructor; assumption]]]. }
  destruct (pull_forward_spec optype c nn (qubits c) w (fun q => map c_node (col (A ++ add_to_slice sd c :: M ++ si' :: R) q)) Qd) as (w' & Ew & Hw).
  { intros q Hq. rewrite (Gn q Hq), col_app. unfold col at 2. cbn [flat_map]. rewrite (Kc q Hq), W, (Col0 q Hq), (Col1 q Hq). cbn [olist app].
    specialize (NDw q). rewrite (Col0 q Hq) in NDw.
    destruct (col M q) as [|m M'] eqn:EM.
    - exists c. split; [reflexivity|]. left. split; reflexivity.
    - exists m. split; [reflexivity|]. right. cbn [app] in NDw |- *. rewrite !map_app in *. cbn [map] in *. rewrite !map_app in *. cbn [map] in *. split.
      + intros ->. apply NoDup_remove in NDw. destruct NDw as [_ X]. apply X. apply in_or_app. right. apply in_or_app. right. left. reflexivity.
      + apply wire_move. assumption. }
  exists w'. split; [assumption|]. split; [|split; [|split; [|split; [|split]]]].
  - split; [assumption|]. split; [rewrite P'; assumption|]. intro q. rewrite Hw. destruct (in_dec Nat.eq_dec q (qubits c)) as [_|X]; [reflexivity|].
    rewrite W. f_equal. symmetry. apply (Col2 q X).
  - (* meaning *)
    intro psi.
    set (L0 := lin (A ++ [sd]) ++ lin M ++ c :: slice_commands si' ++ lin R).
    set (L1 := lin (A ++ [sd]) ++ c :: lin M ++ slice_commands si' ++ lin R).
    assert (PL0 : Permutation L0 (lin (A ++ sd :: M ++ si :: R))).
    { unfold L0. rewrite !lin_app. unfold lin at 2. cbn [flat_map]. rewrite app_nil_r, <- app_assoc. apply Permutation_app_head. unfold lin. cbn [flat_map]. apply Permutation_app_head.
      rewrite flat_map_app. apply Permutation_app_head. cbn [flat_map]. rewrite Cp. reflexivity. }
    assert (PL1 : Permutation L1 (lin (A ++ sd :: M ++ si :: R))).
    { rewrite <- PL0. unfold L0, L1. apply Permutation_app_head. apply Permutation_middle. }
    assert (In0 : forall l, Permutation l (lin (A ++ sd :: M ++ si :: R)) -> incl l qcs).
    { intros l P x Hx. eapply Permutation_in; [|exact Hx]. rewrite P. assumption. }
    assert (Nd0 : forall l, Permutation l (lin (A ++ sd :: M ++ si :: R)) -> NoDup l).
    { intros l P. eapply Permutation_NoDup; [symmetry; rewrite P; exact Pm|apply qcs_nodup]. }
    assert (Ac0 : forall l, Permutation l (lin (A ++ sd :: M ++ si :: R)) -> forall x, In x l -> exists q, acts q x = true).
    { intros l P x Hx. apply qcs_acts. apply (In0 l P). assumption. }
    assert (Cs' : forall q, filter (acts q) (slice_commands si') = olist (nth q si' None)) by (intro; apply (slice_wire n); assumption).
    transitivity (run_commands sem L1 psi); [|transitivity (run_commands sem L0 psi)].
    + apply same_wires_run with (R := qcs); [apply disj_commute|apply Nd0; assumption|apply Nd0; assumption|apply In0; assumption|apply In0; assumption|apply Ac0; assumption|apply Ac0; assumption|].
      * intro q. rewrite (lin_wire n) by assumption. unfold L1. rewrite filter_app_. cbn [filter]. rewrite (filter_app_ _ _ (lin M)), (filter_app_ _ _ (slice_commands si')), Cs'.
        rewrite (lin_wire n M q FM), (lin_wire n R q FR), (lin_wire n (A ++ [sd]) q) by (apply Forall_app; split; [assumption|constructor; [assumption|constructor]]).
        rewrite (col_app A [sd]). change (col [sd] q) with (olist (nth q sd None) ++ []). rewrite app_nil_r, CN.
        destruct (in_dec Nat.eq_dec q (qubits c)) as [X|X].
        -- rewrite (Col1 q X), (Ge q X), (proj2 (acts_qubits q c) X). cbn [olist app]. rewrite app_nil_r. reflexivity.
        -- destruct (acts q c) eqn:Y; [apply acts_qubits in Y; tauto|]. rewrite (Col2 q X), col_app. rewrite <- app_assoc. f_equal. unfold col. cbn [flat_map]. f_equal.
           rewrite flat_map_app. reflexivity.
    + symmetry. unfold L0, L1. apply move_run. intros a Ha.
      assert (Aq : In a qcs) by (apply (In0 L0 PL0); unfold L0; apply in_or_app; right; apply in_or_app; left; assumption).
      apply com_commute; auto. intros q Q1 Q2.
      unfold lin in Ha. apply in_flat_map in Ha. destruct Ha as (s & Hs & Ha). apply slice_commands_in in Ha. destruct Ha as [r Hr].
      assert (Os : sl_ok n s) by (eapply Forall_forall; [exact FM|assumption]). destruct Os as [_ Ks]. destruct (Ks r a Hr) as [_ Ka].
      apply Forall_app in Gp. destruct Gp as [Gp _]. assert (Ps : passes optype c s) by (eapply Forall_forall; [exact Gp|assumption]).
      apply (Ps q a); [assumption|]. apply Ka. assumption.
    + apply same_wires_run with (R := qcs); [apply disj_commute|apply Nd0; assumption|apply Nd0; reflexivity|apply In0; assumption|apply In0; reflexivity|apply Ac0; assumption|apply Ac0; reflexivity|].
      * intro q. rewrite (lin_wire n (A ++ sd :: M ++ si :: R)) by (apply Forall_app; split; [|constructor; [|apply Forall_app; split; [|constructor]]]; assumption).
        unfold L0. rewrite filter_app_, (filter_app_ _ _ (lin M)). cbn [filter]. rewrite (filter_app_ _ _ (slice_commands si')), Cs'.
        rewrite (lin_wire n M q FM), (lin_wire n R q FR), (lin_wire n (A ++ [sd]) q) by (apply Forall_app; split; [assumption|constructor; [assumption|constructor]]).
        rewrite (col_app A [sd]). change (col [sd] q) with (olist (nth q sd None) ++ []). rewrite app_nil_r, CN.
        destruct (in_dec Nat.eq_dec q (qubits c)) as [X|X].
        -- rewrite (Col0 q X), (Ge q X), (proj2 (acts_qubits q c) X). cbn [olist app]. rewrite app_nil_r. reflexivity.
        -- destruct (acts q c) eqn:Y; [apply acts_qubits in Y; tauto|]. rewrite col_app. rewrite <- app_assoc. f_equal. unfold col. cbn [flat_map]. f_equal.
           rewrite flat_map_app. reflexivity.
  - rewrite !app_length. simpl. rewrite !app_length. reflexivity.
  - intros c' Ne j. unfold held, slot.
    assert (HH : forall x y, (forall q, nth q x None = Some c' <-> nth q y None = Some c') -> (exists q, nth q x None = Some c') <-> (exists q, nth q y None = Some c')).
    { intros x y E. split; intros [q K]; exists q; apply E; assumption. }
    destruct (lt_eq_lt_dec j (length A)) as [[L|E]|L].
    + rewrite !app_nth1 by assumption. reflexivity.
    + subst j. rewrite !nth_app_len. apply HH. intro q. rewrite AN. destruct (in_dec Nat.eq_dec q (qubits c)) as [X|_]; [|reflexivity]. rewrite (Ge q X). split; congruence.
    + rewrite !app_nth2 by lia. destruct (j - length A) as [|k] eqn:Ek; [lia|]. cbn [nth].
      destruct (lt_eq_lt_dec k (length M)) as [[L'|E']|L'].
      * rewrite !app_nth1 by assumption. reflexivity.
      * subst k. rewrite !nth_app_len. apply HH. intro q. rewrite CN. destruct (in_dec Nat.eq_dec q (qubits c)) as [X|_]; [|reflexivity]. rewrite (Kc q X). split; congruence.
      * rewrite !app_nth2 by lia. destruct (k - length M) as [|k'] eqn:Ek'; [lia|]. reflexivity.
  - exists q0. unfold slot. rewrite nth_app_len, AN. destruct in_dec as [_|X]; [reflexivity|tauto].
  - intros j [q Hj]. destruct (le_lt_dec j (length A + 1 + length M)) as [|L]; [assumption|]. exfalso. unfold slot in Hj.
    rewrite app_nth2 in Hj by lia. destruct (j - length A) as [|k] eqn:Ek; [lia|]. cbn [nth] in Hj. rewrite app_nth2 in Hj by lia. destruct (k - length M) as [|k'] eqn:Ek'; [lia|]. cbn [nth] in Hj.
    (* c would be twice among the commands *)
    assert (ND : NoDup (lin (A ++ sd :: M ++ si :: R))) by (apply lin_qcs_nodup; assumption).
    rewrite !lin_app in ND. unfold lin in ND. cbn [flat_map] in ND. rewrite flat_map_app in ND. cbn [flat_map] in ND.
    assert (ND2 : NoDup (slice_commands si ++ flat_map slice_commands R)).
    { revert ND. generalize (flat_map slice_commands A) as a, (slice_commands sd) as b, (flat_map slice_commands M) as m, (slice_commands si ++ flat_map slice_commands R) as z. clear.
      intros a b m z H. rewrite !app_assoc in H. induction ((a ++ b) ++ m) as [|x l IH]; [exact H|]. inversion H. auto. }
    assert (I1 : In c (slice_commands si)) by (apply slice_commands_in; eauto).
    assert (I2 : In c (flat_map slice_commands R)).
    { change (In c (lin R)). apply in_lin. exists k', q. exact Hj. }
    revert ND2 I1 I2. generalize (slice_commands si) as a, (flat_map slice_commands R) as b. clear.
    induction a as [|x a IH]; intros b N I1 I2; [destruct I1|]. inversion N; subst. destruct I1 as [->|I1]; [apply H1; apply in_or_app; auto|eauto].
Qed.

Definition step_rel (sl : list slice) (w : wires) (k : nat) (sl' : list slice) (w' : wires) (k' : nat) : Prop :=
  st_ok sl' w' /\ (forall psi, run_commands sem (lin sl') psi = run_commands sem (lin sl) psi) /\ length sl' = length sl /\
  (forall c j, held sl' c j -> exists j0, j <= j0 /\ held sl c j0) /\ k <= k' /\ (k' = k -> sl' = sl /\ w' = w).
Lemma step_refl : forall sl w k, st_ok sl w -> step_rel sl w k sl w k.
Proof. intros. split; [assumption|]. split; [reflexivity|]. split; [reflexivity|]. split; [intros c j Hj; exists j; auto|]. split; [lia|auto]. Qed.
Lemma step_trans : forall sl w k sl1 w1 k1 sl2 w2 k2, step_rel sl w k sl1 w1 k1 -> step_rel sl1 w1 k1 sl2 w2 k2 -> step_rel sl w k sl2 w2 k2.
Proof.
  intros sl w k sl1 w1 k1 sl2 w2 k2 (A1 & A2 & A3 & A4 & A5 & A6) (B1 & B2 & B3 & B4 & B5 & B6).
  split; [assumption|]. split; [intro; rewrite B2; apply A2|]. split; [congruence|]. split; [|split; [lia|]].
  - intros c j H. destruct (B4 c j H) as (j1 & L1 & H1). destruct (A4 c j1 H1) as (j0 & L0 & H0). exists j0. split; [lia|assumption].
  - intro E. assert (k1 = k) by lia. assert (k2 = k1) by lia. destruct (A6 ltac:(assumption)), (B6 ltac:(assumption)). subst. auto.
Qed.

Lemma commute_commands_ok : forall todo i sl w k, st_ok sl w -> NoDup todo -> (forall c, In c todo -> held sl c i) ->
  exists sl' w' k', commute_commands optype todo i sl w k = Some (sl', w', k') /\ step_rel sl w k sl' w' k'.
Proof.
  induction todo as [|c todo IH]; intros i sl w k St N H; [exists sl, w, k; split; [reflexivity|apply step_refl; assumption]|].
  inversion N as [|? ? Nc N']; subst. cbn [commute_commands].
  destruct (available_slice optype c sl i [] None) as [[d nn]|] eqn:Av.
  - destruct (move_ok sl w i c d nn St (H c (or_introl eq_refl)) Av) as (Hd & w1 & Ew & St1 & Rn & Ln & Hl & Hc & Hc').
    rewrite Ew. destruct (IH i (move_slots c sl i d) w1 (S k) St1 N') as (sl2 & w2 & k2 & E & Rel).
    { intros x Hx. apply Hl; [intros ->; tauto|]. apply H. right. assumption. }
    exists sl2, w2, k2. split; [assumption|]. eapply step_trans; [|exact Rel].
    split; [assumption|]. split; [assumption|]. split; [assumption|]. split; [|split; [lia|intro; lia]].
    intros x j Hj. destruct (com_eq_dec x c) as [->|Ne].
    + exists i. split; [apply Hc'; assumption|]. apply H. left. reflexivity.
    + exists j. split; [lia|]. apply (Hl x Ne). assumption.
  - apply IH; [assumption|assumption|]. intros. apply H. right. assumption.
Qed.
Lemma commute_slices_ok : forall todo i sl w k, st_ok sl w ->
  exists sl' w' k', commute_slices optype todo i sl w k = Some (sl', w', k') /\ step_rel sl w k sl' w' k'.
Proof.
  induction todo as [|todo IH]; intros i sl w k St; [exists sl, w, k; split; [reflexivity|apply step_refl; assumption]|].
  cbn [commute_slices].
  destruct (commute_commands_ok (slice_commands (nth i sl [])) i sl w k St) as (sl1 & w1 & k1 & E & Rel).
  - apply slice_commands_nodup.
  - intros c Hc. apply slice_commands_in in Hc. exact Hc.
  - rewrite E. destruct (IH (S i) sl1 w1 k1) as (sl2 & w2 & k2 & E' & Rel'); [apply Rel|].
    exists sl2, w2, k2. split; [assumption|]. eapply step_trans; eassumption.
Qed.

Lemma acts_tket : forall l q, incl l cs -> filter (acts q) l = filter (acts q) (filter tket l).
Proof.
  induction l as [|c l IH]; intros q I; [reflexivity|]. simpl. assert (IH' := IH q (fun x Hx => I x (or_intror Hx))).
  destruct (tket c) eqn:T; simpl.
  - rewrite IH'. reflexivity.
  - destruct (acts q c) eqn:Aq; [|assumption]. exfalso. destruct ok as [_ K]. specialize (K c (I c (or_introl eq_refl))). unfold command_ok in K. unfold tket in T.
    destruct (optype (c_node c)); [discriminate|]. apply acts_in in Aq. apply (K q). assumption.
Qed.
Lemma run_tket : forall l, incl l cs -> forall psi, run_commands sem l psi = run_commands sem (filter tket l) psi.
Proof.
  induction l as [|c l IH]; intros I psi; [reflexivity|]. simpl filter. assert (IH' := IH (fun x Hx => I x (or_intror Hx))).
  specialize (val c (I c (or_introl eq_refl))). unfold tket. destruct (optype (c_node c)).
  - change (run_commands sem l (nodesem sem c psi) = run_commands sem (filter tket l) (nodesem sem c psi)). apply IH'.
  - change (run_commands sem l (nodesem sem c psi) = run_commands sem (filter tket l) psi). unfold nodesem. rewrite val. apply IH'.
Qed.
Lemma map_node_inj : forall l m, incl l cs -> incl m cs -> map c_node l = map c_node m -> l = m.
Proof.
  induction l as [|x l IH]; intros [|y m] Il Im E; try discriminate; [reflexivity|]. simpl in E. injection E as E E'. f_equal.
  - apply node_inj; [apply Il; left; reflexivity|apply Im; left; reflexivity|assumption].
  - apply IH; [intros z Hz; apply Il; right; assumption|intros z Hz; apply Im; right; assumption|assumption].
Qed.
Lemma circuit_wires_on : forall q, circuit_wires cs q = map c_node (filter (acts q) qcs).
Proof.
  intro q. unfold circuit_wires. unfold qcs. rewrite <- acts_tket by apply incl_refl. f_equal. apply filter_ext. intro c.
  destruct (acts q c) eqn:E.
  - apply acts_qubits in E. apply existsb_exists. exists q. split; [assumption|apply Nat.eqb_refl].
  - destruct (existsb (Nat.eqb q) (qubits c)) eqn:X; [|reflexivity]. apply existsb_exists in X. destruct X as (r & Hr & X). apply Nat.eqb_eq in X. subst r. apply acts_qubits in Hr. congruence.
Qed.

Lemma st_ok_run : forall sl w L, st_ok sl w -> Permutation L cs -> (forall q, on_wire q L = w q) ->
  forall psi, run_commands sem L psi = run_commands sem (lin sl) psi.
Proof.
  intros sl w L (Fo & Pm & W) P E psi.
  assert (IL : incl L cs) by (intros x Hx; eapply Permutation_in; eassumption).
  rewrite (run_tket L IL). apply same_wires_run with (R := qcs).
  - apply disj_commute.
  - apply NoDup_filter. eapply Permutation_NoDup; [symmetry; exact P|apply cs_nodup].
  - apply lin_qcs_nodup. assumption.
  - intros x Hx. apply filter_In in Hx. apply filter_In. split; [apply IL|]; apply Hx.
  - apply incl_lin. assumption.
  - intros x Hx. apply qcs_acts. apply filter_In in Hx. apply filter_In. split; [apply IL|]; apply Hx.
  - intros x Hx. apply qcs_acts. eapply incl_lin; eassumption.
  - intro q. rewrite <- acts_tket by assumption. rewrite (lin_wire n) by assumption. apply map_node_inj.
    + intros x Hx. apply filter_In in Hx. apply IL. apply Hx.
    + intros x Hx. rewrite <- (lin_wire n) in Hx by assumption. apply filter_In in Hx. apply qcs_cs. eapply incl_lin; [exact Pm|apply Hx].
    + rewrite <- W. apply E.
Qed.

Lemma greedy_ok : exists sl0 sl w k, load_slices optype n cs = Some sl0 /\ greedy_commutation optype n cs = Some (sl, w, k) /\
  st_ok sl0 (circuit_wires cs) /\ step_rel sl0 (circuit_wires cs) 0 sl w k.
Proof.
  destruct load_ok as (sl0 & E & Fo & Pm & Cl).
  assert (St : st_ok sl0 (circuit_wires cs)).
  { split; [assumption|]. split; [assumption|]. intro q. rewrite circuit_wires_on, Cl. reflexivity. }
  destruct (commute_slices_ok (length sl0) 0 sl0 (circuit_wires cs) 0 St) as (sl & w & k & E' & Rel).
  exists sl0, sl, w, k. split; [assumption|]. split; [|split; assumption]. unfold greedy_commutation. rewrite E. exact E'.
Qed.
Lemma greedy_linear : forall sl w, st_ok sl w -> exists L, Permutation L cs /\ forall q, on_wire q L = w q.
Proof.
  intros sl w (Fo & Pm & W). exists (lin sl ++ filter (fun c => negb (tket c)) cs). 
  assert (P : Permutation (lin sl ++ filter (fun c => negb (tket c)) cs) cs).
  { rewrite Pm. unfold qcs. clear. induction cs as [|c l IH]; [constructor|]. simpl. destruct (tket c); simpl; [constructor; assumption|].
    rewrite <- Permutation_middle. constructor. assumption. }
  split; [assumption|]. intro q. unfold on_wire. rewrite W. f_equal. rewrite filter_app_, (lin_wire n) by assumption.
  rewrite (filter_none _ (acts q) (filter _ cs)); [apply app_nil_r|].
  intros x Hx. apply filter_In in Hx. destruct Hx as [Hx T]. destruct ok as [_ K]. specialize (K x Hx). unfold command_ok in K. unfold tket in T.
  destruct (optype (c_node x)); [discriminate|]. destruct (acts q x) eqn:Aq; [|reflexivity]. apply acts_in in Aq. exfalso. apply (K q). assumption.
Qed.
End Pass.
