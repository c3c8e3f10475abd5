(** Proofs of the properties of the modifier resolver's bookkeeping. *)
From Coq Require Import List Arith Bool Lia NArith Permutation.
From Verif Require Import ResolveModel ResolveSpec ResolveWire ResolvePorts ResolveProofs.
Import ListNotations.

Lemma C27_pf : forall chain outer,
  let c := trace_chain outer chain in
  control c = control outer + total (sizes chain) /\
  accum_ctrl c = accum_ctrl outer ++ sizes chain /\
  dagger c = xorb (dagger outer) (odd_daggers chain) /\
  (control outer = total (accum_ctrl outer) -> control c = total (accum_ctrl c)) /\
  (~ In Power chain -> forall (A : algebra) (u : op A),
     same A (stands_for A c u) (stands_for A outer (denote A chain u)) /\
     same A (stands_for A (trace_chain no_modifier chain) u) (denote A chain u)).
Proof.
  intros chain outer c. destruct (trace_spec chain outer) as (A & B & C).
  split; [exact A|]. split; [exact B|]. split; [exact C|]. split.
  - intros H. unfold c. rewrite A, B, total_app. lia.
  - intros N Al u. split; [apply stands_chain; auto|apply stands_none; auto].
Qed.

Lemma C27_powers_pf : forall c a b,
  trace_chain c (a ++ Power :: Power :: b) = trace_chain c (a ++ b) /\
  control (trace_chain c (a ++ Power :: b)) = control (trace_chain c (a ++ b)) /\
  accum_ctrl (trace_chain c (a ++ Power :: b)) = accum_ctrl (trace_chain c (a ++ b)) /\
  dagger (trace_chain c (a ++ Power :: b)) = dagger (trace_chain c (a ++ b)).
Proof.
  intros c a b. rewrite !trace_app. split.
  - unfold trace_chain. simpl. rewrite negb_involutive. destruct (fold_left push a c); reflexivity.
  - destruct (trace_spec (Power :: b) (trace_chain c a)) as (A & B & C).
    destruct (trace_spec b (trace_chain c a)) as (A' & B' & C').
    rewrite A, B, C, A', B', C'. auto.
Qed.

Lemma C27_flags_pf : forall c old,
  (forall f, from_metadata (Some (set_metadata f)) = Some f) /\
  exists f, from_metadata (Some (new_metadata c old)) = Some f /\ satisfies f c = true /\
    (forall g c', from_metadata old = Some g -> satisfies g c' = true -> satisfies f c' = true) /\
    (forall c', satisfies f c' = true ->
       (control c' > 0 -> control c > 0 \/ exists g, from_metadata old = Some g /\ f_control g = true) /\
       (dagger c' = true -> dagger c = true \/ exists g, from_metadata old = Some g /\ f_dagger g = true) /\
       (power c' = true -> power c = true \/ exists g, from_metadata old = Some g /\ f_power g = true)).
Proof.
  intros c old. split; [apply flags_round|].
  destruct (new_metadata_ok c old) as (f & E & S & G). exists f. split; [exact E|]. split; [exact S|].
  split; [exact G|].
  unfold new_metadata in E. rewrite flags_round in E. inversion E as [F]. clear E G S. subst f.
  intros c' H. unfold satisfies in H. rewrite !andb_true_iff, !orb_true_iff in H.
  destruct H as [[H1 H2] H3]. destruct (from_metadata old) as [g|] eqn:M; simpl in *; (split; [|split]).
  - intros P. destruct H1 as [H1|H1]; [apply Nat.eqb_eq in H1; lia|].
    apply orb_true_iff in H1. destruct H1 as [H1|H1]; [apply Nat.ltb_lt in H1; auto|right; eauto].
  - intros P. rewrite P in H2. destruct H2 as [H2|H2]; [discriminate|].
    apply orb_true_iff in H2. destruct H2; [auto|right; eauto].
  - intros P. rewrite P in H3. destruct H3 as [H3|H3]; [discriminate|].
    apply orb_true_iff in H3. destruct H3; [auto|right; eauto].
  - intros P. destruct H1 as [H1|H1]; [apply Nat.eqb_eq in H1; lia|]. apply Nat.ltb_lt in H1. auto.
  - intros P. rewrite P in H2. destruct H2 as [H2|H2]; [discriminate|auto].
  - intros P. rewrite P in H3. destruct H3 as [H3|H3]; [discriminate|auto].
Qed.

Lemma C28_pack_pf : forall (wire : Type) sz (cs : list wire), 
  (total sz <= length cs <-> exists l, pack_controls wire sz cs = Some l) /\
  (length cs = total sz -> exists l, pack_controls wire sz cs = Some l /\ map (@length _) l = sz /\
     concat l = cs /\ unpack_controls wire sz l = Some cs) /\
  (forall c w, pop_control wire (push_control wire (c, cs) w) = Some (w, (c, cs))) /\
  (forall c w s, control c = length cs -> pop_control wire (c, cs) = Some (w, s) ->
     control (fst s) = length (snd s) /\ cs = snd s ++ [w] /\ push_control wire s w = (c, cs)).
Proof.
  intros wire sz cs. split; [|split; [|split]].
  - split.
    + intros H. destruct (pack_ok wire sz cs H) as (l & P & _). eauto.
    + intros (l & P). destruct (le_lt_dec (total sz) (length cs)); auto.
      rewrite pack_none in P by auto. discriminate.
  - intros H. destruct (pack_ok wire sz cs) as (l & P & M & C); [lia|]. exists l.
    rewrite <- H, firstn_all in C. repeat split; auto. rewrite <- M, unpack_ok, C. auto.
  - intros. apply pop_push.
  - intros c w s H P. destruct (pop_number wire c cs w s H P) as [A B]. repeat split; auto.
    destruct s as [c' r]. simpl in A, B. subst cs. rewrite app_length in H. simpl in H.
    unfold pop_control in P. simpl in P. rewrite rev_app_distr in P. simpl in P.
    rewrite rev_involutive in P. inversion P as [E]. unfold push_control. simpl.
    f_equal. destruct c as [n a d p]. simpl in *. f_equal. lia.
Qed.

Lemma C28_partial_pf : forall chain r,
  let c := trace_chain no_modifier chain in
  (modify_row c false r = declared_row chain r <-> sizes chain = rev (sizes chain)) /\
  (unpack_types (accum_ctrl c) (modify_row c false r) = true <-> sizes chain = rev (sizes chain)) /\
  (forall n, (forall m, In m (sizes chain) -> m = n) -> sizes chain = rev (sizes chain)) /\
  modify_row c true r = repeat Qubit (total (sizes chain)) ++ r.
Proof.
  intros chain r c. split; [apply sig_declared|]. split; [apply sig_unpack|]. split.
  - intros n H. assert (E : sizes chain = repeat n (length (sizes chain))).
    { revert H. generalize (sizes chain). induction l as [|x l IH]; simpl; intros H; auto.
      f_equal; [apply H; auto|apply IH; auto]. }
    rewrite E. generalize (length (sizes chain)). clear. intros k. induction k; auto. simpl. rewrite <- IHk.
    clear. induction k; simpl; congruence.
  - unfold modify_row, c. destruct (trace_spec chain no_modifier) as (A & _ & _). rewrite A. reflexivity.
Qed.

Lemma C28_indirect_partial_pf : forall outer inner r,
  (indirect_loaded (trace_chain no_modifier outer) inner r
    = indirect_expected (trace_chain no_modifier outer) (declared_row inner r) <->
   rev (sizes inner) ++ rev (sizes outer) = rev (sizes outer) ++ sizes inner) /\
  (sizes inner = [] -> indirect_loaded (trace_chain no_modifier outer) inner r
    = indirect_expected (trace_chain no_modifier outer) (declared_row inner r)).
Proof.
  intros outer inner r. split; [apply indirect_match|]. intros E. apply indirect_match. rewrite E.
  simpl. rewrite app_nil_r. auto.
Qed.

Lemma C28_refuted_pf :
  let chain := [Control 1; Control 2] in
  let c := trace_chain no_modifier chain in
  declared_row chain [Qubit] = [QArray 1; QArray 2; Qubit] /\
  modify_row c false [Qubit] = [QArray 2; QArray 1; Qubit] /\
  unpack_types (accum_ctrl c) (modify_row c false [Qubit]) = false /\
  indirect_loaded (trace_chain no_modifier [Control 2]) [Control 1] [Qubit] <>
    indirect_expected (trace_chain no_modifier [Control 2]) (declared_row [Control 1] [Qubit]).
Proof.
  simpl. repeat split. cbn. discriminate.
Qed.

Lemma C29_bijection_pf : forall (ty : Type) (quantum : ty -> bool) dg ins outs a b n, exists m,
  wire_inout quantum dg ins outs a b n = Some m /\
  Permutation (map fst m) (ports a (length ins) b (length outs)) /\
  Permutation (map snd m)
    (ports (a + n) (if dg then number (fun t => negb (quantum t)) ins + number quantum outs else length ins)
           (b + n) (if dg then number (fun t => negb (quantum t)) outs + number quantum ins else length outs)) /\
  NoDup (map fst m) /\ NoDup (map snd m).
Proof.
  intros. eexists. split; [apply wire_ok|].
  assert (K := keys ty quantum dg (S (length ins + length outs)) ins outs a b (a + n) (b + n)
    (Nat.lt_succ_diag_r _)).
  assert (W := news ty quantum dg (S (length ins + length outs)) ins outs a b (a + n) (b + n)
    (Nat.lt_succ_diag_r _)).
  assert (D : forall x i y j, NoDup (ports x i y j)).
  { intros. unfold ports. 
    assert (G : forall d s l, NoDup (map (@pair dir nat d) (seq s l))).
    { intros. apply FinFun.Injective_map_NoDup; [intros u v E; inversion E; auto|apply seq_NoDup]. }
    generalize (G Incoming x i) (G Outgoing y j).
    assert (S : forall p, In p (map (@pair dir nat Incoming) (seq x i)) -> ~ In p (map (@pair dir nat Outgoing) (seq y j))).
    { intros p H H'. apply in_map_iff in H, H'. destruct H as (u & <- & _), H' as (v & E & _). discriminate. }
    revert S. generalize (map (@pair dir nat Incoming) (seq x i)) (map (@pair dir nat Outgoing) (seq y j)).
    induction l as [|p l IH]; simpl; intros l0 S N1 N2; auto. inversion N1; subst. constructor.
    - rewrite in_app_iff. intros [H|H]; [auto|]. exact (S p (or_introl eq_refl) H).
    - apply IH; auto. }
  split; [exact K|]. split; [exact W|]. split.
  - eapply Permutation_NoDup; [apply Permutation_sym, K|apply D].
  - eapply Permutation_NoDup; [apply Permutation_sym, W|apply D].
Qed.

Lemma C29_shift_pf : forall (ty : Type) (quantum : ty -> bool) ins outs a b n m,
  wire_inout quantum false ins outs a b n = Some m ->
  forall p p', In (p, p') m <-> In p (ports a (length ins) b (length outs)) /\ p' = (fst p, snd p + n).
Proof.
  intros ty quantum ins outs a b n m E p p'. apply wire_inv in E. subst m.
  assert (K := keys ty quantum false (S (length ins + length outs)) ins outs a b (a + n) (b + n)
    (Nat.lt_succ_diag_r _)).
  split.
  - intros H. split.
    + eapply Permutation_in; [exact K|]. apply (in_map fst _ _ H).
    + apply shifts in H. exact H.
  - intros [H ->]. eapply Permutation_in in H; [|apply Permutation_sym, K].
    apply in_map_iff in H. destruct H as ((q, q') & E & H). simpl in E. subst q.
    assert (G := H). apply shifts in G. subst q'. exact H.
Qed.

Lemma C29_edges_pf : forall (ty : Type) (quantum : ty -> bool) dg ins outs a b n m ins' outs' a' b' n' m' t i j p q,
  wire_inout quantum dg ins outs a b n = Some m ->
  wire_inout quantum dg ins' outs' a' b' n' = Some m' ->
  nth_error outs i = Some t -> nth_error ins' j = Some t ->
  In ((Outgoing, b + i), p) m -> In ((Incoming, a' + j), q) m' ->
  connect q p = Some (if dg && quantum t then (q, p) else (p, q)).
Proof.
  intros ty quantum dg ins outs a b n m ins' outs' a' b' n' m' t i j p q E E' T T' H H'.
  apply wire_inv in E, E'. subst m m'.
  apply sides in H, H'. destruct H as (i1 & t1 & I1 & T1 & F1), H' as (j1 & t2 & J1 & T2 & F2).
  unfold offset, type_at in *. simpl in *.
  assert (i1 = i) by lia. assert (j1 = j) by lia. subst i1 j1.
  assert (t1 = t) by congruence. assert (t2 = t) by congruence. subst t1 t2.
  unfold connect. rewrite F1, F2. destruct (dg && quantum t); reflexivity.
Qed.

Lemma C29_inside_pf : forall (ty : Type) (quantum : ty -> bool) dg ins outs a b n m m',
  wire_node_inout quantum dg ins outs a b n = Some m ->
  wire_body quantum dg ins outs a b n = Some m' ->
  forall p p', In (p, p') m <-> In (across p, across p') m'.
Proof.
  intros ty quantum dg ins outs a b n m m' E E' p p'. unfold wire_node_inout, wire_body in *.
  apply wire_inv in E, E'. subst m m'.
  rewrite (Nat.add_comm (length outs)). split; intros H.
  - apply across_rounds. exact H.
  - apply across_rounds in H. rewrite !across_across in H. exact H.
Qed.

Lemma C29_dagger_partial_pf : forall (ty : Type) (quantum : ty -> bool) ins outs a b n m,
  wire_inout quantum true ins outs a b n = Some m ->
  (runs quantum ins = runs quantum outs \/
   (exists others, ins = outs ++ others /\ forall t, In t others -> quantum t = false)) ->
  forall p p', In (p, p') m -> daggered quantum ins outs a b n p p'.
Proof.
  intros ty quantum ins outs a b n m E R p p' H. apply wire_inv in E. subst m.
  apply (daggers ty quantum) in H; auto.
  destruct R as [R|(others & -> & C)]; auto. clear H.
  assert (Z : runs quantum others = []).
  { induction others as [|t l IH]; auto. rewrite runs_classical; [|apply C; left; auto].
    apply IH. intros u Hu. apply C. right. auto. }
  assert (H0 : match others with [] => True | t :: _ => quantum t = false end).
  { destruct others; auto. apply C. left. auto. }
  induction outs as [|t l IH]; simpl; auto.
  destruct (quantum t) eqn:Q.
  - unfold runs in *. simpl. rewrite Q.
    assert (G : exists x s s', split_runs quantum (l ++ others) = x :: s /\ split_runs quantum l = x :: s' /\
       filter (fun x => match x with [] => false | _ => true end) s
       = filter (fun x => match x with [] => false | _ => true end) s').
    { clear IH Q t. induction l as [|t l IH].
      - simpl. destruct others as [|u o].
        + exists [], [], []. auto.
        + simpl in *. rewrite H0 in *. simpl in Z. exists [], (split_runs quantum o), []. auto.
      - simpl. destruct IH as (x & s & s' & E1 & E2 & E3). destruct (quantum t).
        + rewrite E1, E2. exists (t :: x), s, s'. auto.
        + rewrite E1, E2. exists [], (x :: s), (x :: s'). split; auto. split; auto.
          simpl. rewrite E3. auto. }
    destruct G as (x & s & s' & E1 & E2 & E3). rewrite E1, E2. simpl. rewrite E3. auto.
  - rewrite !runs_classical; auto.
Qed.

Lemma C29_dagger_refuted_pf :
  let quantum := fun t => match t with Other _ => false | _ => true end in
  (exists m, wire_inout quantum true [Qubit; Other 0; Qubit; Qubit; Other 0] [Qubit; QArray 5] 0 0 0 = Some m /\
     ~ In ((Outgoing, 1), (Incoming, 2)) m /\ In ((Outgoing, 1), (Incoming, 1)) m /\
     In ((Incoming, 1), (Incoming, 2)) m) /\
  (exists m, wire_inout quantum true [Qubit; Other 0; Qubit] [Qubit; Qubit] 0 0 0 = Some m /\
     In ((Outgoing, 1), (Incoming, 1)) m /\
     type_at [Qubit; Other 0; Qubit] [Qubit; Qubit] (Outgoing, 1) = Some Qubit /\
     type_at [Qubit; Other 0; Qubit] [Qubit; Qubit] (Incoming, 1) = Some (Other 0)).
Proof.
  vm_compute. split; eexists; (split; [reflexivity|]); simpl.
  - split; [|tauto]. intros H. repeat (destruct H as [H|H]; [discriminate|]). exact H.
  - tauto.
Qed.

Lemma C29_nested_partial_pf : forall (ty : Type) (quantum : ty -> bool) dg controls ins outs m m',
  forallb quantum controls = true ->
  wire_nested quantum dg controls ins outs = Some m ->
  wire_node_inout quantum dg ins outs 0 0 (length controls) = Some m' ->
  (dg = false \/ controls = [] \/ forallb quantum (ins ++ outs) = true) ->
  forall p p', type_at ins outs p <> None -> (In (p, p') m <-> In (p, p') m').
Proof.
  intros ty quantum dg controls ins outs m m' Q E E' H p p' T. unfold wire_nested, wire_node_inout in *.
  destruct H as [->|[->|H]].
  - rewrite (C29_shift_pf _ _ _ _ _ _ _ _ E p p'), (C29_shift_pf _ _ _ _ _ _ _ _ E' p p').
    unfold ports. rewrite !in_app_iff, !in_map_iff, !app_length.
    split; intros [K S]; (split; [|exact S]); destruct p as [d i], d; unfold type_at in T; simpl in T;
      apply nth_error_Some in T.
    + left. exists i. split; auto. apply in_seq. lia.
    + right. exists i. split; auto. apply in_seq. lia.
    + left. exists i. split; auto. apply in_seq. lia.
    + right. exists i. split; auto. apply in_seq. lia.
  - cbn [app length] in E, E'. rewrite E in E'. assert (m = m') by congruence. subst. tauto.
  - destruct dg; [|].
    2: { rewrite (C29_shift_pf _ _ _ _ _ _ _ _ E p p'), (C29_shift_pf _ _ _ _ _ _ _ _ E' p p').
      unfold ports. rewrite !in_app_iff, !in_map_iff, !app_length.
      split; intros [K S]; (split; [|exact S]); destruct p as [d i], d; unfold type_at in T; simpl in T;
        apply nth_error_Some in T.
      + left. exists i. split; auto. apply in_seq. lia.
      + right. exists i. split; auto. apply in_seq. lia.
      + left. exists i. split; auto. apply in_seq. lia.
      + right. exists i. split; auto. apply in_seq. lia. }
    apply wire_inv in E, E'. subst m m'.
    rewrite forallb_app in H. apply andb_true_iff in H. destruct H as [H1 H2].
    assert (H1' : forallb quantum (controls ++ ins) = true) by (rewrite forallb_app, Q, H1; auto).
    assert (H2' : forallb quantum (controls ++ outs) = true) by (rewrite forallb_app, Q, H2; auto).
    assert (R : forall fuel X Y a b c d, forallb quantum X = true -> forallb quantum Y = true ->
      rounds ty quantum true (S fuel) X Y a b c d =
        zipp Incoming a Outgoing d (length X) ++ zipp Outgoing b Incoming c (length Y)).
    { intros fuel X Y a b c d HX HY. simpl. unfold round.
      destruct (all_quantum ty quantum X HX) as (C1 & C2 & C3).
      destruct (all_quantum ty quantum Y HY) as (D1 & D2 & D3).
      rewrite C1, C2, C3, D1, D2, D3. simpl. rewrite !Nat.add_0_r, !app_nil_r. reflexivity. }
    rewrite !R by auto. rewrite !in_app_iff, !zipp_in, !app_length. simpl.
    destruct p as [d i], d; unfold type_at in T; simpl in T; apply nth_error_Some in T;
      split; intros [(x & L & K)|(x & L & K)]; inversion K; subst.
    + left. exists x. split; auto.
    + left. exists x. split; auto. lia.
    + right. exists x. split; auto.
    + right. exists x. split; auto. lia.
Qed.

Lemma C29_nested_refuted_pf :
  let quantum := fun t => match t with Other _ => false | _ => true end in
  exists m m', wire_nested quantum true [Qubit] [Other 0; Qubit] [Qubit] = Some m /\
    wire_body quantum true [Other 0; Qubit] [Qubit] 0 0 1 = Some m' /\
    In ((Incoming, 0), (Outgoing, 1)) m /\
    In (across (Incoming, 0), across (Incoming, 1)) m' /\
    ~ In (across (Incoming, 0), across (Outgoing, 1)) m'.
Proof.
  vm_compute. eexists. eexists. split; [reflexivity|]. split; [reflexivity|]. simpl. split; [tauto|].
  split; [tauto|]. intros H. repeat (destruct H as [H|H]; [discriminate|]). exact H.
Qed.

Lemma C53_partial_pf : forall just_inputs rest n,
  ((forall i, i < n ->
      nth_error (loop_inputs just_inputs rest n) (loop_control_port just_inputs i) = Some Qubit) /\
   (forall i t, nth_error (just_inputs ++ rest) i = Some t ->
      nth_error (loop_inputs just_inputs rest n) (loop_port just_inputs n i) = Some t) <->
   (n = 0 \/ rest = repeat Qubit (length rest))) /\
  (forall (tag : type) others, 
     (forall i, i < n -> nth_error (tag :: cond_inputs others n) (cond_control_port i) = Some Qubit) /\
     (forall (ty : type -> bool) outs m i t p, wire_node_inout ty false others outs 1 0 n = Some m ->
        nth_error others i = Some t -> In ((Incoming, 1 + i), p) m ->
        fst p = Incoming /\ nth_error (tag :: cond_inputs others n) (snd p) = Some t)).
Proof.
  intros ji rest n. split; [apply loop_iff|]. intros tag others. split.
  - intros i H. unfold cond_inputs, cond_control_port. rewrite Nat.add_1_r. simpl.
    rewrite nth_error_app1 by (rewrite repeat_length; auto). apply nth_repeat. auto.
  - intros ty outs m i t p E T H. apply (C29_shift_pf _ _ _ _ _ _ _ _ E) in H. destruct H as [_ ->].
    simpl. split; auto. unfold cond_inputs. rewrite nth_error_app2; rewrite repeat_length; [|lia].
    replace (i + n - n) with i by lia. auto.
Qed.

Lemma C53_refuted_pf :
  nth_error (loop_inputs [] [Other 0] 1) (loop_control_port [] 0) = Some (Other 0) /\
  nth_error (loop_inputs [] [Other 0] 1) (loop_port [] 1 0) = Some Qubit.
Proof.
 split; reflexivity. Qed.

Lemma C54_partial_pf : forall body base,
  tidy (Region body) = true -> NoDup (map fst (calls (Region body) base)) ->
  Permutation (link_calls body base) (calls (Region body) base).
Proof.
  exact links_ok.
Qed.

Lemma C54_refuted_pf :
  (calls (Region [Call 7; Call 7]) 10 = [(7, 13); (7, 14)] /\
   link_calls [Call 7; Call 7] 10 = [(7, 14)]) /\
  (calls (Region [Call 7; Region []]) 10 = [(7, 13)] /\ link_calls [Call 7; Region []] 10 = []) /\
  (calls (Region [Call 7; Region [Plain; Plain]]) 10 = [(7, 13)] /\
   link_calls [Call 7; Region [Plain; Plain]] 10 = [(7, 17)]).
Proof.
 repeat split. Qed.

