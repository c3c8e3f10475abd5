(** Proofs of the properties of the pipeline: entry points, the order of operations. *)
From Coq Require Import Ascii String List Arith Bool ZArith Lia.
From Verif Require Import PipeModel PipeSpec PipeProofs.
Import ListNotations.

Lemma C99_restored_pf : forall o p h h' n,
  starts h n -> run_qsystem o p h = (h', true) -> h_entry h' = ENode n.
Proof.
  intros o p h h' n hs hr. unfold run_qsystem in hr.
  destruct hs as [ n e | n before i after e ec hb ha ].
  - rewrite e in hr. destruct (run_all _ _) as [ h1 [] ]; inversion hr. reflexivity.
  - rewrite e in hr.
    assert (hf : find is_main (h_children h) = Some (n, FuncDefn "main" i)).
    { apply find_filter with (t := []). rewrite ec, filter_app. simpl.
      rewrite (not_main before hb), (not_main after ha). reflexivity. }
    rewrite hf in hr. simpl fst in hr. destruct (run_all _ _) as [ h1 [] ]; inversion hr. reflexivity.
Qed.

Lemma C99_called_partial_pf : forall p h n f i,
  starts h n -> lookup n h = Some (FuncDefn f i) ->
  (h_entry h = ENode n -> i = 0) -> (h_entry h = EModule -> f = "main"%string) ->
  (forall q, In q (sequence default_options p (ENode n)) -> keeps n f i q) ->
  keeps n f i (p_inline p) ->
  exists h', compile p h = (h', Some [Setup; CallFn 0 i n; Teardown]).
Proof.
  intros p h n f i hs hl hi hm hk hk2.
  assert (hname : get_entry_point_name h = Some (name_func f n)).
  { unfold get_entry_point_name. destruct hs as [ n e | n before j after e ec hb ha ]; rewrite e.
    - rewrite hl, (hi e). reflexivity.
    - rewrite ec, filter_app. cbn [filter]. rewrite (not_main before hb), (not_main after ha).
      rewrite (hm e). reflexivity. }
  assert (hrun : exists h1, run_qsystem default_options p h = (set_entry (ENode n) h1, true)
                            /\ lookup n h1 = Some (FuncDefn f i)).
  { destruct (run_all_keeps n f i _ hk (set_entry EModule h) hl) as (h1 & e1 & e2).
    exists h1. split; [ | exact e2 ]. unfold run_qsystem.
    destruct hs as [ n e | n before j after e ec hb ha ]; rewrite e.
    - rewrite e1. reflexivity.
    - assert (hf : find is_main (h_children h) = Some (n, FuncDefn "main" j)).
      { apply find_filter with (t := []). rewrite ec, filter_app. simpl.
        rewrite (not_main before hb), (not_main after ha). reflexivity. }
      rewrite hf. simpl fst. rewrite e1. reflexivity. }
  destruct hrun as (h1 & e1 & e2). unfold compile. rewrite hname, e1.
  destruct (hk2 (set_entry (ENode n) h1) e2) as (h2 & e3 & e4). rewrite e3.
  rewrite (lookup_emit _ _ _ _ e4). eauto.
Qed.

Lemma C99_names_pf : forall f g n m, name_func f n = name_func g m -> f = g /\ n = m.
Proof.
 exact name_inj. Qed.

Lemma C99_refused_pf : forall h,
  get_entry_point_name h = None <->
  ((forall n f, h_entry h = ENode n -> lookup n h <> Some (FuncDefn f 0))
   /\ (h_entry h = EModule -> forall n, ~ starts h n)).
Proof.
  intro h. unfold get_entry_point_name. destruct (h_entry h) as [ | n ] eqn:e.
  - split.
    + intro hn. split; [ intros; discriminate | ]. intros _ n hs.
      destruct hs as [ n e' | n before i after e' ec hb ha ]; [ congruence | ].
      rewrite ec, filter_app in hn. cbn [filter] in hn.
      rewrite (not_main before hb), (not_main after ha) in hn. discriminate.
    + intros (_ & hm). specialize (hm eq_refl).
      destruct (filter is_main (h_children h)) as [ | c [ | d t ] ] eqn:ef; auto.
      exfalso. destruct (filter_one_split _ _ _ _ ef) as (a & b & ec & hc & ha & hb).
      destruct c as [ n c ]. unfold is_main in hc. simpl in hc.
      destruct c as [ f i | | ]; try discriminate. apply String.eqb_eq in hc. subst f.
      apply (hm n). apply (starts_main h n a i b); auto; apply filter_nil_main; assumption.
  - split.
    + intro hn. split; [ | intros; discriminate ]. intros n' f e'. inversion e'; subst n'.
      intro hl. rewrite hl in hn. discriminate.
    + intros (hm & _). destruct (lookup n h) as [ [ f i | | ] | ] eqn:el; auto.
      destruct (Nat.eqb_spec i 0) as [ -> | ]; auto. exfalso. exact (hm n f eq_refl el).
Qed.

Lemma C99_inputs_refuted_pf : forall i p,
  (forall q, In q (sequence default_options p (ENode 1)) -> keeps 1 "main" (S i) q) ->
  keeps 1 "main" (S i) (p_inline p) ->
  exists h', compile p {| h_children := [(1, FuncDefn "main" (S i))]; h_entry := EModule |}
             = (h', Some [Setup; CallFn 0 (S i) 1; Teardown]).
Proof.
  intros i p hk hk2. apply (C99_called_partial_pf p _ 1 "main"%string (S i)); auto; simpl.
  - apply (starts_main _ 1 [] (S i) []); auto; intros m c [].
  - discriminate.
Qed.

Lemma C99_failure_refuted_pf : forall o p,
  (forall h, p_lower p h = (h, false)) ->
  (forall h, p_mono p h = (h, true)) -> (forall e h, p_dead p e h = (h, true)) ->
  exists h h', h_entry h = ENode 2 /\ starts h 2
    /\ run_qsystem o p h = (h', false) /\ h_entry h' = EModule /\ starts h' 1.
Proof.
  intros o p h1 h2 h3.
  set (h := {| h_children := [(1, FuncDefn "main" 0); (2, FuncDefn "other" 0)]; h_entry := ENode 2 |}).
  exists h, (set_entry EModule h). split; [ reflexivity | ]. split; [ constructor; reflexivity | ].
  split; [ | split; [ reflexivity | ] ].
  - unfold run_qsystem, sequence. simpl h_entry. cbv iota.
    destruct (o_mono o); simpl; rewrite ?h2, ?h3, h1; reflexivity.
  - apply (starts_main _ 1 [] 0 [(2, FuncDefn "other" 0)]); auto.
    intros m c [ e | [] ] j. inversion e. discriminate.
Qed.

Lemma C100_total_pf : forall g, acyclic g ->
  exists l, force_order (length (r_nodes g)) g (r_nodes g) = Some l /\ greedy g l.
Proof.
 exact force_order_greedy. Qed.

Lemma C100_reads_pf : forall g l pre r post x, greedy g l -> l = pre ++ r :: post ->
  r_op g r = FutRead -> In x post ->
  r_op g x = FutRead \/ exists y, depends g x y /\ In y (r :: post) /\ r_op g y = FutRead.
Proof.
  intros g l pre r post x hg e hr hx.
  destruct (rank_cases (r_op g x)) as [ c | [ c | [ c | [ c | (c & _) ] ] ] ]; [ | | | | left; exact c ];
    right; destruct (put_off g l hg pre r post e x hx) as (z & z1 & z2 & _ & z4);
    try (rewrite hr; unfold rank at 2; simpl; lia);
    exists z; (split; [ exact z1 | split; [ exact z2 | ] ]);
    rewrite hr in z4; unfold rank at 1 in z4; simpl in z4;
    destruct (rank_cases (r_op g z)) as [ d | [ d | [ d | [ d | (d & _) ] ] ] ]; try exact d; lia.
Qed.

Lemma C100_quantum_pf : forall g l pre c post q, greedy g l -> l = pre ++ c :: post ->
  classical (r_op g c) \/ r_op g c = FutRead -> In q post -> quantum (r_op g q) \/ alloc (r_op g q) ->
  exists z, depends g q z /\ In z (c :: post) /\ free_in g pre z
            /\ (classical (r_op g z) \/ r_op g z = FutRead).
Proof.
  intros g l pre c post q hg e hc hq hk.
  assert (rc : (0 <= rank (r_op g c))%Z).
  { destruct hc as [ [ -> | -> ] | -> ]; unfold rank; simpl; lia. }
  assert (rq : (rank (r_op g q) < 0)%Z).
  { destruct hk as [ [ -> | [ -> | [ -> | -> ] ] ] | [ -> | [ -> | -> ] ] ]; unfold rank; simpl; lia. }
  destruct (put_off g l hg pre c post e q hq) as (z & z1 & z2 & z3 & z4); [ lia | ].
  exists z. split; [ exact z1 | split; [ exact z2 | split; [ exact z3 | ] ] ].
  destruct (rank_cases (r_op g z)) as [ d | [ d | [ d | [ (d & _) | (d & _) ] ] ] ]; auto; lia.
Qed.

Lemma C100_frees_pf : forall g l pre x post f, greedy g l -> l = pre ++ x :: post ->
  ~ free (r_op g x) -> In f post -> free (r_op g f) ->
  exists z, depends g f z /\ In z (x :: post) /\ free_in g pre z /\ ~ free (r_op g z).
Proof.
  intros g l pre x post f hg e hx hf hk.
  assert (rf : rank (r_op g f) = (-3)%Z) by (destruct hk as [ -> | -> ]; reflexivity).
  assert (rx : (-3 < rank (r_op g x))%Z).
  { destruct (rank_cases (r_op g x)) as [ (d & _) | [ d | [ d | [ d | d ] ] ] ]; [ contradiction | lia .. ]. }
  destruct (put_off g l hg pre x post e f hf) as (z & z1 & z2 & z3 & z4); [ lia | ].
  exists z. split; [ exact z1 | split; [ exact z2 | split; [ exact z3 | ] ] ].
  intros [ ez | ez ]; rewrite ez in z4; unfold rank at 2 in z4; simpl in z4; lia.
Qed.

Lemma C100_allocs_partial_pf : forall g l pre a post q, greedy g l -> l = pre ++ a :: post ->
  alloc (r_op g a) -> In q post -> quantum (r_op g q) ->
  exists z, depends g q z /\ In z (a :: post) /\ free_in g pre z /\ ~ quantum (r_op g z).
Proof.
  intros g l pre a post q hg e ha hq hk.
  assert (ra : rank (r_op g a) = (-1)%Z) by (destruct ha as [ -> | [ -> | -> ] ]; reflexivity).
  assert (rq : (rank (r_op g q) < -1)%Z).
  { destruct hk as [ -> | [ -> | [ -> | -> ] ] ]; unfold rank; simpl; lia. }
  destruct (put_off g l hg pre a post e q hq) as (z & z1 & z2 & z3 & z4); [ lia | ].
  exists z. split; [ exact z1 | split; [ exact z2 | split; [ exact z3 | ] ] ].
  intro hz. assert (rz : (rank (r_op g z) < -1)%Z).
  { destruct hz as [ -> | [ -> | [ -> | -> ] ] ]; unfold rank; simpl; lia. }
  lia.
Qed.

Lemma C100_late_refuted_pf : forall n, exists g,
  (exists l, linear g l /\ at_most g l 1) /\ (forall l, greedy g l -> uses g l (Z.of_nat n)).
Proof.
  intro n. exists (angles n). split.
  - exists (seq 0 (3 * n + 1)). split; [ apply angles_linear | apply angles_at_most ].
  - apply angles_uses.
Qed.

