(** Proofs of the properties C60, C61: empty wires, and the ECC rewriter from its classes to the rewritten circuit. *)
From Coq Require Import List Bool Arith Lia ZArith Ring_theory Permutation Sorted.
From Verif Require Import PatSpec PatModel PatProofs PatRewrite PatMatch PatInterp PatCheck PatExamples EccModel EwModel EwSpec EwProofs EwSim EwReduce EwRewriter.
Import ListNotations.

Lemma C60_removed_pf : forall ain aout lin (c : circuit optype) l, schedule ain aout lin c l ->
  (forall k, In k (empty_wires ain c) <-> idle ain c k) /\ StronglySorted lt (empty_wires ain c) /\
  forall ws, StronglySorted lt ws -> incl ws (empty_wires ain c) ->
  exists d, remove_wires ain c ws = Some d /\ without_wires ain ws c d /\ (incl (empty_wires ain c) ws -> empty_wires ain d = []).
Proof.
  intros ain aout lin c l H. split; [apply empty_idle|]. split; [apply empty_sorted|]. intros ws Hs Hi.
  destruct (remove_all ain ws c (ordered_bounded ain aout lin c l H) Hs) as (d & E & W & _ & Hb); [intros k Hk; apply empty_idle; auto|].
  exists d. split; auto. split; auto. intros Ha. destruct (empty_wires ain d) as [|j js] eqn:Ed; auto. exfalso.
  destruct (Hb j) as (m & N & Hm); [apply empty_idle; rewrite Ed; now left|]. apply N. apply Ha. apply empty_idle. auto.
Qed.

Lemma C60_error_pf : forall ain aout lin (c : circuit optype) l k, schedule ain aout lin c l ->
  match remove_empty_wire ain c k with
  | inl d => idle ain c k /\ without_wires ain [k] c d
  | inr InvalidPortOffset => c_inputs c < k
  | inr OutOfBounds => k = c_inputs c
  | inr DeleteNonEmptyWire => k < c_inputs c /\ ~ idle ain c k
  end.
Proof.
  intros ain aout lin c l k H. destruct (in_dec Nat.eq_dec k (empty_wires ain c)) as [Hin|N].
  - apply empty_idle in Hin. destruct (remove_one ain c k (ordered_bounded ain aout lin c l H) Hin) as (d & -> & W). auto.
  - assert (Hi : ~ idle ain c k) by (intros Hi; apply N; apply empty_idle; auto). unfold remove_empty_wire. destruct (Nat.leb_spec (c_inputs c) k); [destruct (Nat.eqb_spec (c_inputs c) k); auto; lia|].
    assert (Q : match linked_ports ain c HIn (POut k) with [] => true | [(HOut, _)] => true | _ => false end = false).
    { destruct (match linked_ports ain c HIn (POut k) with [] => true | [(HOut, _)] => true | _ => false end) eqn:E; auto. exfalso. apply N. unfold empty_wires. apply filter_In. split; auto. apply in_seq. lia. }
    destruct (linked_ports ain c HIn (POut k)) as [|[[| |n] [q|q]] [|? ?]]; try discriminate; auto.
Qed.

Lemma C60_meaning_pf : forall ain aout lin R r0 r1 radd rmul rsub ropp (Rth : ring_theory r0 r1 radd rmul rsub ropp (@eq R)) P (d0 d1 : P) matrix qout cout qout_inj,
  let I := gates optype ain aout lin R r0 r1 radd rmul rsub ropp Rth P d0 matrix qout cout qout_inj in let lout := lout optype ain lin qout in
  d0 <> d1 -> forall c t lc lt' fi fo ws, schedule ain aout lin c lc -> schedule ain aout lin t lt' -> linear_typed ain lin lout c fi fo -> linear_typed ain lin lout t fi fo ->
  equivalent I fi c t -> StronglySorted lt ws -> (forall k, In k ws -> idle ain c k /\ idle ain t k) ->
  exists c' t' fi' fo', remove_wires ain c ws = Some c' /\ remove_wires ain t ws = Some t' /\
    (exists l, schedule ain aout lin c' l) /\ (exists l, schedule ain aout lin t' l) /\ linear_typed ain lin lout c' fi' fo' /\ linear_typed ain lin lout t' fi' fo' /\ equivalent I fi' c' t'.
Proof.
  intros ain aout lin R r0 r1 radd rmul rsub ropp Rth P d0 d1 matrix qout cout qout_inj I lout N c t lc lt' fi fo ws Hc Ht Tc Tt Eq Hs Hi.
  apply (reduce_pair ain aout lin R r0 r1 radd rmul rsub ropp Rth P d0 d1 N matrix qout cout qout_inj ws c t fi fo); eauto.
Qed.

Lemma C61_everywhere_pf : forall ain aout lin R r0 r1 radd rmul rsub ropp (Rth : ring_theory r0 r1 radd rmul rsub ropp (@eq R)) P (d0 : P) matrix qout cout qout_inj,
  let I := gates optype ain aout lin R r0 r1 radd rmul rsub ropp Rth P d0 matrix qout cout qout_inj in
  forall c d fi fo, linear_typed ain lin (lout optype ain lin qout) c fi fo -> (forall k, ~ idle ain c k) -> equivalent I fi c d -> interchangeable I fi c d.
Proof.
  intros ain aout lin R r0 r1 radd rmul rsub ropp Rth P d0 matrix qout cout qout_inj I c d fi fo T Ni Eq.
  apply everywhere; auto. eapply all_used; eauto.
Qed.

Lemma C61_rewrite_partial_pf : forall ain aout lin R r0 r1 radd rmul rsub ropp (Rth : ring_theory r0 r1 radd rmul rsub ropp (@eq R)) P (d0 d1 : P) matrix qout cout qout_inj typed commands es,
  let I := gates optype ain aout lin R r0 r1 radd rmul rsub ropp Rth P d0 matrix qout cout qout_inj in let lout := lout optype ain lin qout in
  d0 <> d1 -> (forall c, Permutation (commands c) (c_nodes c)) -> (forall e, In e es -> sound_class ain aout lin R r0 r1 radd rmul rsub ropp Rth P d0 matrix qout cout qout_inj e) ->
  exists w, from_classes ain lin typed commands es = Some w /\
  forall c l fi fo i ts t m off, schedule ain aout lin c l -> linear_typed ain lin lout c fi fo -> matches ain w c i m off -> get_targets _ _ w i = Some ts -> In t ts ->
  exists d, get_rewrite ain w c i t m off = inl d /\ linear_typed ain lin lout d fi fo /\ (exists k, schedule ain aout lin d k) /\ equivalent I fi c d.
Proof.
  intros ain aout lin R r0 r1 radd rmul rsub ropp Rth P d0 d1 matrix qout cout qout_inj typed commands es I lout N Hc He.
  destruct (StrategyMain.C46_rules_within_class_pf (circuit optype) (circuit optype * pattern) (pattern_of ain lin typed commands) (empty_wires ain) es) as (w & Ew & _).
  exists w. split; [exact Ew|]. intros c l fi fo i ts t m off H1 H2 H3 H4 H5.
  apply (rewrite_once ain aout lin R r0 r1 radd rmul rsub ropp Rth P d0 d1 N matrix qout cout qout_inj typed commands Hc es w c l fi fo i ts t m off); auto.
Qed.

Lemma C61_rewritten_partial_pf : forall ain aout lin R r0 r1 radd rmul rsub ropp (Rth : ring_theory r0 r1 radd rmul rsub ropp (@eq R)) P (d0 d1 : P) matrix qout cout qout_inj typed commands es w,
  let I := gates optype ain aout lin R r0 r1 radd rmul rsub ropp Rth P d0 matrix qout cout qout_inj in let lout := lout optype ain lin qout in
  d0 <> d1 -> (forall c, Permutation (commands c) (c_nodes c)) -> (forall e, In e es -> sound_class ain aout lin R r0 r1 radd rmul rsub ropp Rth P d0 matrix qout cout qout_inj e) ->
  from_classes ain lin typed commands es = Some w ->
  forall c l fi fo d, schedule ain aout lin c l -> linear_typed ain lin lout c fi fo -> ecc_rewritten ain w c d ->
  linear_typed ain lin lout d fi fo /\ (exists k, schedule ain aout lin d k) /\ equivalent I fi c d.
Proof.
  intros ain aout lin R r0 r1 radd rmul rsub ropp Rth P d0 d1 matrix qout cout qout_inj typed commands es w I lout N Hc He Ew c l fi fo d H1 H2 H3.
  apply (rewrite_many ain aout lin R r0 r1 radd rmul rsub ropp Rth P d0 d1 N matrix qout cout qout_inj typed commands Hc es w c l fi fo d); auto.
Qed.

