(** Properties of the correspondence of ports. *)
From Coq Require Import List Arith Bool Lia Permutation.
From Verif Require Import ResolveModel ResolveSpec ResolveWire.
Import ListNotations.

Section Ports.
Variable ty : Type.
Variable quantum : ty -> bool.
Notation cl := (fun t => negb (quantum t)).
Notation I := Incoming.
Notation O := Outgoing.
Notation c1 := (c1 ty quantum).
Notation q1 := (q1 ty quantum).
Notation r1 := (r1 ty quantum).
Notation rounds := (rounds ty quantum).
Notation round := (round ty quantum).

(** ** Parts of a row *)

Lemma c1_all : forall l t, In t (c1 l) -> quantum t = false.
Proof.
  intros l t H. assert (A := take_all _ cl l). rewrite forallb_forall in A.
  specialize (A t H). apply negb_true_iff in A. exact A.
Qed.
Lemma q1_all : forall l t, In t (q1 l) -> quantum t = true.
Proof.
  intros l t H. assert (A := take_all _ quantum (dropw cl l)). rewrite forallb_forall in A. auto.
Qed.

Lemma nth_c1 : forall l x, x < length (c1 l) -> exists t, nth_error l x = Some t /\ quantum t = false.
Proof.
  intros l x H. assert (P : nth_error l x = nth_error (c1 l) x).
  { rewrite (parts ty quantum l) at 1. apply nth_error_app1. exact H. }
  rewrite P. destruct (nth_error (c1 l) x) eqn:E.
  - exists t. split; auto. apply (c1_all l). eapply nth_error_In; eauto.
  - apply nth_error_None in E. lia.
Qed.

Lemma nth_q1 : forall l x, x < length (q1 l) ->
  exists t, nth_error l (length (c1 l) + x) = Some t /\ nth_error (q1 l) x = Some t /\ quantum t = true.
Proof.
  intros l x H. assert (P : nth_error l (length (c1 l) + x) = nth_error (q1 l) x).
  { rewrite (parts ty quantum l) at 1. rewrite nth_error_app2 by lia.
    replace (length (c1 l) + x - length (c1 l)) with x by lia.
    apply nth_error_app1. exact H. }
  rewrite P. destruct (nth_error (q1 l) x) eqn:E.
  - exists t. repeat split; auto. apply (q1_all l). eapply nth_error_In; eauto.
  - apply nth_error_None in E. lia.
Qed.

Lemma nth_r1 : forall l i, nth_error l (length (c1 l) + length (q1 l) + i) = nth_error (r1 l) i.
Proof.
  intros. rewrite (parts ty quantum l) at 1. rewrite app_assoc, nth_error_app2; rewrite app_length.
  - f_equal. lia.
  - lia.
Qed.

Lemma number_app : forall f (a b : list ty), number f (a ++ b) = number f a + number f b.
Proof. intros. unfold number. rewrite filter_app, app_length. auto. Qed.
Lemma number_all : forall f (l : list ty), (forall t, In t l -> f t = true) -> number f l = length l.
Proof.
  intros f l. unfold number. induction l; simpl; intros H; auto.
  rewrite (H a) by auto. simpl. f_equal. apply IHl. auto.
Qed.
Lemma number_none : forall f (l : list ty), (forall t, In t l -> f t = false) -> number f l = 0.
Proof.
  intros f l. unfold number. induction l; simpl; intros H; auto.
  rewrite (H a) by auto. apply IHl. auto.
Qed.

Lemma number_parts_q : forall l, number quantum l = length (q1 l) + number quantum (r1 l).
Proof.
  intros. rewrite (parts ty quantum l) at 1. rewrite !number_app.
  rewrite (number_none quantum (c1 l)) by apply c1_all.
  rewrite (number_all quantum (q1 l)) by apply q1_all. lia.
Qed.
Lemma number_parts_c : forall l, number cl l = length (c1 l) + number cl (r1 l).
Proof.
  intros. rewrite (parts ty quantum l) at 1. rewrite !number_app.
  rewrite (number_all cl (c1 l)) by (intros; rewrite (c1_all l); auto).
  rewrite (number_none cl (q1 l)) by (intros; rewrite (q1_all l); auto). lia.
Qed.

Lemma firstn_q1 : forall l x, x <= length (q1 l) -> number quantum (firstn (length (c1 l) + x) l) = x.
Proof.
  intros l x H. rewrite (parts ty quantum l) at 2. rewrite firstn_app.
  replace (length (c1 l) + x - length (c1 l)) with x by lia.
  rewrite firstn_all2 by lia. rewrite firstn_app.
  replace (x - length (q1 l)) with 0 by lia. simpl. rewrite app_nil_r, number_app.
  rewrite number_none by apply c1_all.
  rewrite number_all.
  - rewrite firstn_length. lia.
  - intros t Ht. apply (q1_all l). rewrite <- (firstn_skipn x). apply in_or_app. auto.
Qed.
Lemma firstn_r1 : forall l i,
  number quantum (firstn (length (c1 l) + length (q1 l) + i) l)
  = length (q1 l) + number quantum (firstn i (r1 l)).
Proof.
  intros. rewrite (parts ty quantum l) at 3. rewrite app_assoc, firstn_app, app_length.
  rewrite firstn_all2 by (rewrite app_length; lia).
  replace (length (c1 l) + length (q1 l) + i - (length (c1 l) + length (q1 l))) with i by lia.
  rewrite !number_app. rewrite (number_none quantum (c1 l)) by apply c1_all.
  rewrite (number_all quantum (q1 l)) by apply q1_all. lia.
Qed.

(** ** Permutations *)

Lemma perm6 : forall (A : Type) (A1 A2 A3 B1 B2 B3 : list A),
  Permutation (A1 ++ B1 ++ A2 ++ B2 ++ A3 ++ B3) ((A1 ++ A2 ++ A3) ++ B1 ++ B2 ++ B3).
Proof.
  intros. rewrite <- app_assoc. apply Permutation_app_head.
  rewrite Permutation_app_swap_app, <- app_assoc. apply Permutation_app_head.
  rewrite (app_assoc B1 B2 (A3 ++ B3)), Permutation_app_swap_app, <- app_assoc. reflexivity.
Qed.

Lemma seq3 : forall d a n m k,
  map (@pair dir nat d) (seq a (n + m + k)) =
  map (pair d) (seq a n) ++ map (pair d) (seq (a + n) m) ++ map (pair d) (seq (a + n + m) k).
Proof. intros. rewrite <- Nat.add_assoc, seq_app, seq_app, !map_app. auto. Qed.

Variable dg : bool.

Lemma keys : forall fuel X Y a b c d, length X + length Y < fuel ->
  Permutation (map fst (rounds dg fuel X Y a b c d)) (ports a (length X) b (length Y)).
Proof.
  induction fuel as [|fuel IH]; intros X Y a b c d L; [lia|].
  rewrite rounds_S by auto.
  assert (PX := progress ty quantum X). assert (PY := progress ty quantum Y).
  rewrite map_app. unfold ResolveWire.round at 1. rewrite !map_app, !fst_zipp.
  destruct X as [|x X], Y as [|y Y].
  1: { destruct fuel; simpl; auto. }
  all: assert (IH' := IH); rewrite <- !app_assoc; unfold ports;
    match goal with |- context [ResolveWire.rounds _ _ _ _ (r1 ?X) (r1 ?Y)] =>
      rewrite (parts_length ty quantum X), (parts_length ty quantum Y), !seq3, <- perm6,
        (IH (r1 X) (r1 Y));
        [reflexivity
        |destruct PX as [PX1 PX2], PY as [PY1 PY2]; simpl in *;
         try specialize (PX2 ltac:(discriminate)); try specialize (PY2 ltac:(discriminate)); lia] end.
Qed.

Lemma news : forall fuel X Y a b c d, length X + length Y < fuel ->
  Permutation (map snd (rounds dg fuel X Y a b c d))
    (ports c (if dg then number cl X + number quantum Y else length X)
           d (if dg then number cl Y + number quantum X else length Y)).
Proof.
  induction fuel as [|fuel IH]; intros X Y a b c d L; [lia|].
  rewrite rounds_S by auto.
  assert (PX := progress ty quantum X). assert (PY := progress ty quantum Y).
  rewrite map_app. unfold ResolveWire.round at 1. rewrite !map_app, !snd_zipp.
  destruct X as [|x X], Y as [|y Y].
  1: { destruct dg, fuel; simpl; auto. }
  all: assert (IH' := IH); rewrite <- !app_assoc; unfold ports;
    match goal with |- context [ResolveWire.rounds _ _ _ _ (r1 ?X) (r1 ?Y)] =>
      rewrite (IH (r1 X) (r1 Y))
        by (destruct PX as [PX1 PX2], PY as [PY1 PY2]; simpl in *;
         try specialize (PX2 ltac:(discriminate)); try specialize (PY2 ltac:(discriminate)); lia);
      destruct dg;
      [rewrite (number_parts_c X), (number_parts_c Y), (number_parts_q X), (number_parts_q Y);
       replace (length (c1 X) + number cl (r1 X) + (length (q1 Y) + number quantum (r1 Y)))
         with (length (c1 X) + length (q1 Y) + (number cl (r1 X) + number quantum (r1 Y))) by lia;
       replace (length (c1 Y) + number cl (r1 Y) + (length (q1 X) + number quantum (r1 X)))
         with (length (c1 Y) + length (q1 X) + (number cl (r1 Y) + number quantum (r1 X))) by lia;
       rewrite !seq3, <- perm6; unfold ports; apply Permutation_app_head, Permutation_app_head;
       rewrite !app_assoc; do 2 apply Permutation_app_tail; apply Permutation_app_comm
      |rewrite (parts_length ty quantum X), (parts_length ty quantum Y), !seq3, <- perm6; reflexivity] end.
Qed.

(** ** Without a dagger the correspondence is a shift *)

Lemma shifts : forall fuel X Y a b n p p', In (p, p') (rounds false fuel X Y a b (a + n) (b + n)) ->
  p' = (fst p, snd p + n).
Proof.
  induction fuel as [|fuel IH]; intros X Y a b n p p' H; [destruct H|].
  simpl in H. apply in_app_or in H. destruct H as [H|H].
  - unfold ResolveWire.round in H. repeat (apply in_app_or in H; destruct H as [H|H]);
      apply zipp_in in H; destruct H as (x & Hx & E); inversion E; subst; simpl; f_equal; lia.
  - assert (G : In (p, p') (rounds false fuel (r1 X) (r1 Y) (a + length (c1 X) + length (q1 X))
          (b + length (c1 Y) + length (q1 Y)) (a + length (c1 X) + length (q1 X) + n)
          (b + length (c1 Y) + length (q1 Y) + n))).
    { replace (a + length (c1 X) + length (q1 X) + n) with (a + n + length (c1 X) + length (q1 X)) by lia.
      replace (b + length (c1 Y) + length (q1 Y) + n) with (b + n + length (c1 Y) + length (q1 Y)) by lia.
      destruct (r1 X); [destruct (r1 Y); [destruct H|]|]; exact H. }
    apply IH in G. exact G.
Qed.

(** ** Quantum ports change sides, and no others *)

Definition offset (p : port) (a b : nat) := match fst p with Incoming => a | Outgoing => b end.

Lemma sides : forall fuel X Y a b c d p p', In (p, p') (rounds dg fuel X Y a b c d) ->
  exists i t, snd p = offset p a b + i /\ type_at X Y (fst p, i) = Some t /\
    fst p' = if dg && quantum t then flip (fst p) else fst p.
Proof.
  induction fuel as [|fuel IH]; intros X Y a b c d p p' H; [destruct H|].
  simpl in H. apply in_app_or in H. destruct H as [H|H].
  - unfold ResolveWire.round in H. repeat (apply in_app_or in H; destruct H as [H|H]);
      apply zipp_in in H; destruct H as (x & Hx & E); inversion E; subst; unfold offset, type_at; simpl.
    + destruct (nth_c1 X x Hx) as (t & T & Q). exists x, t. rewrite T, Q, andb_false_r. auto.
    + destruct (nth_c1 Y x Hx) as (t & T & Q). exists x, t. rewrite T, Q, andb_false_r. auto.
    + destruct (nth_q1 X x Hx) as (t & T & _ & Q). exists (length (c1 X) + x), t.
      rewrite T, Q, andb_true_r. repeat split; auto; try lia; destruct dg; auto.
    + destruct (nth_q1 Y x Hx) as (t & T & _ & Q). exists (length (c1 Y) + x), t.
      rewrite T, Q, andb_true_r. repeat split; auto; try lia; destruct dg; auto.
  - match type of H with In ?e _ => assert (G : In e (rounds dg fuel (r1 X) (r1 Y)
        (a + length (c1 X) + length (q1 X))
        (b + length (c1 Y) + length (q1 Y))
        (c + length (c1 X) + (if dg then length (q1 Y) else length (q1 X)))
        (d + length (c1 Y) + (if dg then length (q1 X) else length (q1 Y))))) end.
    { destruct (r1 X); [destruct (r1 Y); [destruct H|]|]; exact H. }
    apply IH in G. destruct G as (i & t & E & T & F).
    destruct p as [[] k]; unfold offset, type_at in *; simpl in *.
    + exists (length (c1 X) + length (q1 X) + i), t. rewrite nth_r1. repeat split; auto. lia.
    + exists (length (c1 Y) + length (q1 Y) + i), t. rewrite nth_r1. repeat split; auto. lia.
Qed.

(** ** Inside and outside agree *)

Lemma across_rounds : forall fuel X Y a b c d p p', In (p, p') (rounds dg fuel X Y a b c d) ->
  In (across p, across p') (rounds dg fuel Y X b a d c).
Proof.
  induction fuel as [|fuel IH]; intros X Y a b c d p p' H; [destruct H|].
  simpl in H |- *. apply in_app_or in H. apply in_or_app. destruct H as [H|H].
  - left. unfold ResolveWire.round in *. rewrite !in_app_iff in *.
    destruct H as [H|[H|[H|H]]]; apply zipp_in in H; destruct H as (x & Hx & E);
      inversion E; subst; unfold across; simpl.
    + right. left. apply zipp_in. exists x. auto.
    + left. apply zipp_in. exists x. auto.
    + right. right. right. apply zipp_in. exists x. destruct dg; auto.
    + right. right. left. apply zipp_in. exists x. destruct dg; auto.
  - right.
    assert (G : In (across p, across p') (rounds dg fuel (r1 Y) (r1 X)
        (b + length (c1 Y) + length (q1 Y))
        (a + length (c1 X) + length (q1 X))
        (d + length (c1 Y) + (if dg then length (q1 X) else length (q1 Y)))
        (c + length (c1 X) + (if dg then length (q1 Y) else length (q1 X))))).
    { apply IH. destruct (r1 X); [destruct (r1 Y); [destruct H|]|]; exact H. }
    destruct (r1 Y); [destruct (r1 X); [destruct H|]|]; exact G.
Qed.

Lemma across_across : forall p, across (across p) = p.
Proof. intros [[] i]; reflexivity. Qed.

(** ** Daggers *)

Lemma runs_classical : forall t l, quantum t = false -> runs quantum (t :: l) = runs quantum l.
Proof. intros. unfold runs. simpl. rewrite H. reflexivity. Qed.

Lemma runs_drop : forall l, runs quantum l = runs quantum (dropw cl l).
Proof.
  induction l as [|t l IH]; auto. simpl. destruct (quantum t) eqn:E; simpl; auto.
  rewrite runs_classical; auto.
Qed.

Lemma runs_q : forall l, (forall t r, l = t :: r -> quantum t = true) ->
  runs quantum l = match takew quantum l with [] => [] | q => q :: runs quantum (dropw quantum l) end.
Proof.
  intros [|t l] H; [reflexivity|]. assert (Q := H t l eq_refl). clear H.
  revert t Q. induction l as [|t' l IH]; intros t Q.
  - simpl. rewrite Q. simpl. unfold runs. simpl. rewrite Q. reflexivity.
  - unfold runs. simpl. rewrite Q. simpl.
    destruct (quantum t') eqn:Q'.
    + specialize (IH t' Q'). unfold runs in IH. simpl in IH. rewrite Q' in IH. simpl in IH.
      destruct (split_runs quantum l) as [|x s] eqn:S; simpl in *; injection IH as E1 E2;
        rewrite E1; f_equal; exact E2.
    + simpl. rewrite Q'. reflexivity.
Qed.

Lemma runs_parts : forall l,
  (q1 l = [] /\ r1 l = [] /\ runs quantum l = []) \/
  (q1 l <> [] /\ runs quantum l = q1 l :: runs quantum (r1 l)).
Proof.
  intros l. rewrite runs_drop. unfold ResolveWire.q1, ResolveWire.r1.
  assert (H : forall t r, dropw cl l = t :: r -> quantum t = true).
  { intros t r E. apply drop_head in E. apply negb_false_iff in E. exact E. }
  rewrite (runs_q _ H). destruct (dropw cl l) as [|t r]; [left; auto|].
  right. simpl. rewrite (H t r eq_refl). split; [discriminate|reflexivity].
Qed.

Lemma runs_equal : forall X Y, runs quantum X = runs quantum Y ->
  q1 X = q1 Y /\ runs quantum (r1 X) = runs quantum (r1 Y).
Proof.
  intros X Y E. destruct (runs_parts X) as [(A & B & C)|(A & C)], (runs_parts Y) as [(A' & B' & C')|(A' & C')];
    rewrite C, C' in E; try discriminate.
  - rewrite A, A', B, B'. auto.
  - injection E as E1 E2. auto.
Qed.

Lemma counterpart_later : forall X Y i j, q1 X = q1 Y -> counterpart quantum (r1 X) i (r1 Y) j ->
  counterpart quantum X (length (c1 X) + length (q1 X) + i) Y (length (c1 Y) + length (q1 Y) + j).
Proof.
  intros X Y i j E (t & Q & T1 & T2 & N). exists t. rewrite !nth_r1, !firstn_r1, N, E. auto.
Qed.
Lemma counterpart_now : forall X Y x, q1 X = q1 Y -> x < length (q1 X) ->
  counterpart quantum X (length (c1 X) + x) Y (length (c1 Y) + x).
Proof.
  intros X Y x E L. destruct (nth_q1 X x L) as (t & T & T1 & Q).
  assert (L' := L). rewrite E in L'. destruct (nth_q1 Y x L') as (t' & T' & T1' & Q').
  assert (t = t') by congruence. subst t'.
  exists t. rewrite !firstn_q1 by lia. auto.
Qed.

Lemma daggers : forall fuel X Y a b n p p', runs quantum X = runs quantum Y ->
  In (p, p') (rounds true fuel X Y a b (a + n) (b + n)) -> daggered quantum X Y a b n p p'.
Proof.
  induction fuel as [|fuel IH]; intros X Y a b n p p' R H; [destruct H|].
  destruct (runs_equal X Y R) as [E R'].
  simpl in H. apply in_app_or in H. destruct H as [H|H].
  - unfold ResolveWire.round in H. repeat (apply in_app_or in H; destruct H as [H|H]);
      apply zipp_in in H; destruct H as (x & Hx & EE); inversion EE; subst; simpl.
    + destruct (nth_c1 X x Hx) as (t & T & Q). exists x, t. rewrite Q. auto.
    + destruct (nth_c1 Y x Hx) as (t & T & Q). exists x, t. rewrite Q. auto.
    + destruct (nth_q1 X x Hx) as (t & T & _ & Q). exists (length (c1 X) + x), t. rewrite Q.
      repeat split; auto; [lia|]. exists (length (c1 Y) + x). split; [f_equal; lia|].
      apply counterpart_now; auto.
    + destruct (nth_q1 Y x Hx) as (t & T & _ & Q). exists (length (c1 Y) + x), t. rewrite Q.
      repeat split; auto; [lia|]. exists (length (c1 X) + x). split; [f_equal; lia|].
      apply counterpart_now; auto.
  - assert (G : In (p, p') (rounds true fuel (r1 X) (r1 Y) (a + length (c1 X) + length (q1 X))
          (b + length (c1 Y) + length (q1 Y)) (a + length (c1 X) + length (q1 X) + n)
          (b + length (c1 Y) + length (q1 Y) + n))).
    { replace (a + length (c1 X) + length (q1 X) + n) with (a + n + length (c1 X) + length (q1 Y)) by (rewrite E; lia).
      replace (b + length (c1 Y) + length (q1 Y) + n) with (b + n + length (c1 Y) + length (q1 X)) by (rewrite E; lia).
      destruct (r1 X); [destruct (r1 Y); [destruct H|]|]; exact H. }
    apply (IH _ _ _ _ _ _ _ R') in G.
    destruct p as [[] k]; simpl in *.
    + destruct G as (i & t & -> & T & G). exists (length (c1 X) + length (q1 X) + i), t.
      rewrite nth_r1. repeat split; auto; [lia|]. destruct (quantum t).
      * destruct G as (j & -> & G). exists (length (c1 Y) + length (q1 Y) + j).
        split; [f_equal; lia|]. apply counterpart_later; auto.
      * subst p'. f_equal. lia.
    + destruct G as (j & t & -> & T & G). exists (length (c1 Y) + length (q1 Y) + j), t.
      rewrite nth_r1. repeat split; auto; [lia|]. destruct (quantum t).
      * destruct G as (i & -> & G). exists (length (c1 X) + length (q1 X) + i).
        split; [f_equal; lia|]. apply counterpart_later; auto.
      * subst p'. f_equal. lia.
Qed.

(** Rows without classical types. *)
Lemma all_quantum : forall X, forallb quantum X = true -> c1 X = [] /\ q1 X = X /\ r1 X = [].
Proof.
  intros X H. unfold ResolveWire.c1, ResolveWire.q1, ResolveWire.r1.
  assert (G : forall l, forallb quantum l = true -> takew cl l = [] /\ dropw cl l = l).
  { intros [|t l]; simpl; auto. intros E. apply andb_true_iff in E. destruct E as [E _]. rewrite E. auto. }
  destruct (G X H) as [-> ->]. split; auto.
  clear G. induction X; simpl in *; auto. apply andb_true_iff in H. destruct H as [H1 H2]. rewrite H1.
  destruct (IHX H2) as [E1 E2]. rewrite E1, E2. auto.
Qed.
End Ports.
