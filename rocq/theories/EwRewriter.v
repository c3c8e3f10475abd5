(** The ECC rewriter, from the classes of circuits to the rewritten circuit. *)
From Coq Require Import List Bool Arith Lia Ring_theory Permutation Sorted.
From Verif Require Import PatSpec PatModel PatProofs PatRewrite PatMatch PatInterp PatCheck PatMain EccModel StrategyMain EwModel EwSpec EwProofs EwSim EwReduce.
Import ListNotations.

Section Rewriter.
Variables ain aout : optype -> nat.
Variable lin : optype -> nat -> bool.
Variable R : Type.
Variables (r0 r1 : R) (radd rmul rsub : R -> R -> R) (ropp : R -> R).
Hypothesis Rth : ring_theory r0 r1 radd rmul rsub ropp eq.
Variable P : Type.
Variables d0 d1 : P.
Hypothesis two_values : d0 <> d1.
Variable matrix : optype -> list P -> list bool -> list bool -> R.
Variable qout : optype -> nat -> option nat.
Variable cout : optype -> list P -> nat -> P.
Hypothesis qout_inj : forall o j j' k, qout o j = Some k -> qout o j' = Some k -> j = j'.
Notation circuit := (circuit optype).
Notation glout := (lout optype ain lin qout).
Notation G := (gates optype ain aout lin R r0 r1 radd rmul rsub ropp Rth P d0 matrix qout cout qout_inj).

Lemma in_combine_swap {A B} (l : list A) (m : list B) x y : In (x, y) (combine l m) -> In (y, x) (combine m l).
Proof. revert m. induction l as [|a l IH]; intros [|b m] H; cbn in *; try contradiction. destruct H as [[= -> ->]|H]; auto. Qed.
Lemma equivalent_sym (c d : circuit) fi : equivalent G fi c d -> equivalent G fi d c.
Proof.
  intros (E1 & E2 & H). split; auto. split; auto. intros l m s t Hl Hm (L1 & L2 & L3) Ti.
  assert (D : forall k, k < c_inputs d -> In (Inp k, Inp k) (map (fun k => (Inp k, Inp k)) (seq 0 (c_inputs d)))) by (intros k Hk; apply in_map_iff; exists k; split; auto; apply in_seq; lia).
  assert (L : like G (map (fun k => (Inp k, Inp k)) (seq 0 (c_inputs c))) t s).
  { rewrite E1. split; [|split].
    - intros w w' Hw. apply in_map_iff in Hw. destruct Hw as (k & [= <- <-] & Hk). apply in_seq in Hk. symmetry. apply L1. apply D. lia.
    - intros u u' w w' n Hu Hw Q1 Q2. assert (Hu' := Hu). assert (Hw' := Hw). apply in_map_iff in Hu', Hw'. destruct Hu' as (k & [= <- <-] & Hk), Hw' as (k' & [= <- <-] & Hk').
      apply (L2 (Inp k) (Inp k) (Inp k') (Inp k') n); auto; [rewrite (L1 (Inp k) (Inp k))|rewrite (L1 (Inp k') (Inp k'))]; auto.
    - intros b. symmetry. apply L3. }
  assert (T : typed_inputs G fi c (fun w => w) t). { intros k Hk. rewrite <- (Ti k) by lia. cbn [kind gates]. unfold gkind. rewrite (L1 (Inp k) (Inp k)); auto. apply D. lia. }
  destruct (H m l t s Hm Hl L T) as (M1 & M2 & M3). split; [|split].
  - intros w w' Hw. symmetry. apply M1. apply in_combine_swap. auto.
  - intros u u' w w' n Hu Hw Q1 Q2. apply in_combine_swap in Hu, Hw. destruct (M2 u' u w' w n) as [-> ->]; auto; [rewrite (M1 _ _ Hu)|rewrite (M1 _ _ Hw)]; auto.
  - intros b. symmetry. apply M3.
Qed.

(** Both sides of a rule, without the wires that are empty in the pattern. *)
Lemma reduce_pair ws : forall (c t : circuit) fi fo, StronglySorted lt ws -> (forall k, In k ws -> idle ain c k /\ idle ain t k) ->
  (exists l, schedule ain aout lin c l) -> (exists l, schedule ain aout lin t l) -> linear_typed ain lin glout c fi fo -> linear_typed ain lin glout t fi fo -> equivalent G fi c t ->
  exists c' t' fi' fo', remove_wires ain c ws = Some c' /\ remove_wires ain t ws = Some t' /\ (exists l, schedule ain aout lin c' l) /\ (exists l, schedule ain aout lin t' l) /\
    linear_typed ain lin glout c' fi' fo' /\ linear_typed ain lin glout t' fi' fo' /\ equivalent G fi' c' t'.
Proof.
  induction ws as [|k ws IH] using rev_ind; intros c t fi fo Hs Hi (lc & Hc) (lt & Ht) Tc Tt Eq.
  - exists c, t, fi, fo. repeat (split; [solve [eauto]|]). auto.
  - apply sorted_app in Hs. destruct Hs as [S1 S2]. destruct (Hi k) as [Ic It]; [apply in_or_app; right; now left|].
    destruct (remove_one ain c k (ordered_bounded ain aout lin c lc Hc) Ic) as (c1 & E1 & W1). destruct (remove_one ain t k (ordered_bounded ain aout lin t lt Ht) It) as (t1 & E2 & W2).
    rewrite !remove_app, E1, E2. apply (IH c1 t1 (cut k fi) (keep (map (fun w => negb (removed [k] w)) (c_outs c)) fo)); auto.
    + intros m Hm. destruct (Hi m) as [H1 H2]; [apply in_or_app; auto|]. split; [apply (low_idle ain k c c1 m W1 Ic)|apply (low_idle ain k t t1 m W2 It)]; auto.
    + exists lc. apply (schedule_to ain aout lin k c c1 W1 Ic). auto.
    + exists lt. apply (schedule_to ain aout lin k t t1 W2 It). auto.
    + apply typed_without; auto.
    + assert (Pos := same_positions ain aout lin R r0 r1 radd rmul rsub ropp Rth P d0 d1 two_values matrix qout cout qout_inj c t fi k lc lt Hc Ht Ic It Eq).
      assert (Mask : map (fun w => negb (removed [k] w)) (c_outs c) = map (fun w => negb (removed [k] w)) (c_outs t)) by (rewrite <- !(map_map (removed [k]) negb); rewrite Pos; auto).
      rewrite Mask. apply typed_without; auto.
    + apply (equivalent_without ain aout lin R r0 r1 radd rmul rsub ropp Rth P d0 d1 two_values matrix qout cout qout_inj k c t c1 t1 fi lc lt); auto. rewrite (t_ins Tc). apply Ic.
Qed.

(** A circuit without idle inputs uses all its linear inputs in its nodes. *)
Lemma all_used (c : circuit) fi fo : linear_typed ain lin glout c fi fo -> (forall k, ~ idle ain c k) ->
  forall k, k < c_inputs c -> nth k fi false = true -> exists x, In x (c_nodes c) /\ In (Inp k) (linear_ins ain lin c x).
Proof.
  intros T Ni k Hk Hf. assert (C : count_occ source_eq_dec (uses ain c (c_nodes c)) (Inp k) <= 1) by (apply (t_once T); auto).
  destruct (existsb (fun x => if in_dec source_eq_dec (Inp k) (ins ain c x) then true else false) (c_nodes c)) eqn:Ex.
  - apply existsb_exists in Ex. destruct Ex as (x & Hx & H). destruct (in_dec source_eq_dec (Inp k) (ins ain c x)) as [Hin|]; [|discriminate]. exists x. split; auto. apply in_ins in Hin. destruct Hin as (i & Hi & E).
    unfold linear_ins. apply in_map_iff. exists i. split; auto. apply filter_In. split; [apply in_seq; lia|]. rewrite (t_port T) by auto. rewrite E. auto.
  - exfalso. apply (Ni k). split; auto. split.
    + intros x Hx Hin. assert (existsb (fun x => if in_dec source_eq_dec (Inp k) (ins ain c x) then true else false) (c_nodes c) = true); [|congruence]. apply existsb_exists. exists x. split; auto. destruct (in_dec _ _ _); [auto|contradiction].
    + unfold uses in C. rewrite count_occ_app in C. lia.
Qed.
Lemma inputs_linked (c : circuit) : (forall k, ~ idle ain c k) -> forall q, In q (map (fun k => linked_ports ain c HIn (POut k)) (seq 0 (c_inputs c))) -> q <> [].
Proof.
  intros Ni q Hq ->. apply in_map_iff in Hq. destruct Hq as (k & E & Hk). apply (Ni k). apply empty_idle. unfold empty_wires. apply filter_In. split; auto. rewrite E. auto.
Qed.
Lemma pattern_inputs typed (c : circuit) commands p : try_from_circuit ain lin typed c commands = inl p -> p_inputs p = map (fun k => linked_ports ain c HIn (POut k)) (seq 0 (c_inputs c)).
Proof.
  unfold try_from_circuit. destruct (existsb _ _); [|discriminate]. destruct (all_some _); [|discriminate]. destruct (any_root _ _ _) as [[? ?]|]; [|discriminate]. destruct (existsb _ _); [discriminate|]. intros [= <-]. reflexivity.
Qed.

(** ** One rewrite *)
Variable typed : optype -> nat -> bool.
Variable commands : circuit -> list (nat * optype).
Hypothesis all_commands : forall c, Permutation (commands c) (c_nodes c).
(** The circuits of a class are valid, have no containers, have the same typing, and compute the same as the representative. *)
Definition sound_class (e : eqclass circuit) : Prop := exists fi fo,
  (forall c, In c (rep_circ circuit e :: other_circs circuit e) ->
     (exists l, schedule ain aout lin c l) /\ linear_typed ain lin glout c fi fo /\ forall n k data body, ~ In (n, ContainerOp k data body) (c_nodes c)) /\
  forall c, In c (other_circs circuit e) -> equivalent G fi (rep_circ circuit e) c.
(** [m] is a match of pattern [i] in [c] (see PatModel.v), whose subgraph is accepted; numbers from [off] on are unused. *)
Definition matches (w : ecc_rewriter) (c : circuit) (i : nat) (m : bimap) (off : nat) : Prop := exists pc p ws r order root,
  nth_error (rows _ _ w) i = Some (pc, p, ws, r) /\ covers (p_edges p) order /\ get_match_map ain p order c root = Some m /\
  subgraph_ok ain pc c (node_map m) (boundary_input c p m) = true /\ forall x, In x (c_nodes c) -> fst x < off.
(** Any number of rewrites (circuits of get_rewrites, applied one after another). *)
Inductive ecc_rewritten (w : ecc_rewriter) (c : circuit) : circuit -> Prop :=
  | ecc_start : ecc_rewritten w c c
  | ecc_step d e i ts t m off : ecc_rewritten w c d -> matches w d i m off -> get_targets _ _ w i = Some ts -> In t ts -> get_rewrite ain w d i t m off = inl e -> ecc_rewritten w c e.

Lemma rewrite_once es w (c : circuit) l fi fo i ts t m off : (forall e, In e es -> sound_class e) -> from_classes ain lin typed commands es = Some w ->
  schedule ain aout lin c l -> linear_typed ain lin glout c fi fo -> matches w c i m off -> get_targets _ _ w i = Some ts -> In t ts ->
  exists d, get_rewrite ain w c i t m off = inl d /\ linear_typed ain lin glout d fi fo /\ (exists k, schedule ain aout lin d k) /\ equivalent G fi c d.
Proof.
  intros Hes Ew Hc Tc (pc & p & ws & r & order & root & Hr & Hcov & Hm & Hs & Hf) Et Ht. unfold from_classes in Ew.
  destruct (C46_rules_within_class_pf circuit (circuit * pattern) (pattern_of ain lin typed commands) (empty_wires ain) es) as (w' & Ew' & Hrows & _). rewrite Ew in Ew'. injection Ew' as <-.
  destruct (Hrows i (pc, p, ws, r) Hr) as (e & a & cand & ts' & He & Hp & Hws & Hcand & Et' & Hts). cbn [fst snd] in Hp, Hws. rewrite Et in Et'. injection Et' as <-.
  apply Hts in Ht. destruct Ht as [Ht Hsub]. destruct (Hes e He) as (ei & eo & Hcs & Heq).
  assert (Ha : In a (rep_circ circuit e :: other_circs circuit e)) by (destruct Hcand as [[-> _]|[H _]]; [now left|now right]).
  assert (Hb : In t (rep_circ circuit e :: other_circs circuit e)) by (destruct Hcand as [[_ ->]|[_ ->]]; [now right|destruct Ht as [<-|[]]; now left]).
  assert (Eq : equivalent G ei a t). { destruct Hcand as [[-> ->]|[H ->]]; [apply Heq; auto|]. destruct Ht as [<-|[]]. apply equivalent_sym. apply Heq. auto. }
  destruct (Hcs a Ha) as (Sa & Ta & La). destruct (Hcs t Hb) as (Sb & Tb & _).
  destruct (reduce_pair ws a t ei eo) as (a' & t' & ei' & eo' & Ra & Rt & Sa' & Sb' & Ta' & Tb' & Eq'); auto.
  { rewrite Hws. apply empty_sorted. }
  { intros k Hk. rewrite Hws in Hk. split; apply empty_idle; auto. }
  unfold pattern_of in Hp. rewrite <- Hws, Ra in Hp. destruct (try_from_circuit ain lin typed a' (commands a')) as [p'|] eqn:Etry; [|discriminate]. injection Hp as -> ->.
  destruct Sa as (la & Sa). destruct (remove_all ain ws a (ordered_bounded ain aout lin a la Sa)) as (a'' & Ra' & Wa & _ & Hidle); [rewrite Hws; apply empty_sorted|intros k Hk; rewrite Hws in Hk; apply empty_idle; auto|].
  rewrite Ra in Ra'. injection Ra' as <-.
  assert (Ni : forall k, ~ idle ain pc k). { intros k Hk. destruct (Hidle k Hk) as (m0 & N & Hm0). apply N. rewrite Hws. apply empty_idle. auto. }
  assert (Ic : interchangeable G ei' pc t'). { apply everywhere; auto. apply (all_used pc ei' eo'); auto. }
  exists (rewrite_match c pc t' p m off). split.
  { unfold get_rewrite. rewrite Hr, Rt. destruct Eq' as (Q1 & Q2 & _). unfold same_arity. rewrite Q1, Q2, !Nat.eqb_refl. reflexivity. }
  destruct Sa' as (la' & Sa'). destruct Sb' as (lb' & Sb').
  apply (C57_rewrite_partial_pf ain aout lin glout typed G c pc t' _ l la' lb' fi fo ei' eo'); auto.
  - intros n k data body H. rewrite (w_nodes Wa) in H. eapply La; eauto.
  - exists (commands pc), p, order, root, m, off. split; [exact Etry|]. split; [apply all_commands|]. split; [|repeat (split; [assumption|]); reflexivity].
    rewrite (pattern_inputs _ _ _ _ Etry). apply inputs_linked. auto.
Qed.
Lemma rewrite_many es w (c : circuit) l fi fo d : (forall e, In e es -> sound_class e) -> from_classes ain lin typed commands es = Some w ->
  schedule ain aout lin c l -> linear_typed ain lin glout c fi fo -> ecc_rewritten w c d ->
  linear_typed ain lin glout d fi fo /\ (exists k, schedule ain aout lin d k) /\ equivalent G fi c d.
Proof.
  intros Hes Ew Hc Tc H. induction H as [|d e i ts t m off H IH Hm Et Ht Eg].
  - split; auto. split; [eauto|]. split; auto. split; auto. intros m n s t Hm Hn L Ti. apply self_like; auto.
  - destruct IH as (Td & (k & Sd) & Eq). destruct (rewrite_once es w d k fi fo i ts t m off) as (e' & Eg' & Te & Se & Eq'); auto. rewrite Eg in Eg'. injection Eg' as <-. split; auto. split; auto.
    apply (equivalent_trans _ ain aout lin glout G c d e fi k); auto.
Qed.
End Rewriter.
