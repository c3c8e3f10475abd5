(** Proofs about resource tracking. *)
From Coq Require Import List Bool Arith Lia Relations.
From Verif Require Import ScopeModel ScopeSpec.
Import ListNotations.

Definition pair_dec : forall a b : nat * nat, {a = b} + {a <> b}. Proof. decide equality; apply Nat.eq_dec. Defined.

Section Scope.
Variables (g : graph) (nodes : list nat).

Lemma has_type_iff : forall n p t, has_type g n p t <-> port_type g n p = Some t.
Proof.
  intros n [d i] t. unfold has_type, port_type, types. simpl. destruct (signature g n) as [[ins outs]|]; split.
  - intros (a & b & E & H). injection E as <- <-. exact H.
  - intros H. exists ins, outs. split; [reflexivity|]. destruct d; exact H.
  - intros (a & b & E & _). discriminate.
  - intros H. destruct i; discriminate.
Qed.
Lemma has_type_fun : forall n p t t', has_type g n p t -> has_type g n p t' -> t = t'.
Proof. intros n p t t' A B. apply has_type_iff in A. apply has_type_iff in B. congruence. Qed.
Lemma contains_In : forall n, contains nodes n = true <-> In n nodes.
Proof. intros n. unfold contains. rewrite existsb_exists. split; [intros (x & I & E); apply Nat.eqb_eq in E; subst; auto|intros I; exists n; split; [exact I|apply Nat.eqb_refl]]. Qed.
Lemma types_length : forall n d i, i < length (types g n d) <-> exists t, has_type g n (d, i) t.
Proof.
  intros n d i. split.
  - intros L. destruct (nth_error (types g n d) i) as [t|] eqn:E; [exists t; apply has_type_iff; exact E|apply nth_error_None in E; lia].
  - intros (t & H). apply has_type_iff in H. unfold port_type in H. simpl in H. apply nth_error_Some. congruence.
Qed.
Lemma signed : forall n p t, has_type g n p t -> exists s, signature g n = Some s.
Proof. intros n p t (a & b & E & _). eauto. Qed.

(** ** Fresh units *)
Definition fresh (st st' : state) (P : nat -> port -> Prop) : Prop :=
  next_id st <= next_id st' /\
  (forall m q, ~ P m q -> units st' m q = units st m q) /\
  (forall m q, P m q -> exists t, has_type g m q t /\
     (copyable g t = true -> exists w, from_connected_port g m q = Some w /\ units st' m q = Some (Copyable w)) /\
     (copyable g t = false -> exists r, units st' m q = Some (Resource r) /\ next_id st <= r < next_id st')) /\
  (forall m q m' q' r, P m q -> P m' q' -> units st' m q = Some (Resource r) -> units st' m' q' = Some (Resource r) -> m = m' /\ q = q').
Definition entered (st st' : state) : Prop := forall m, position st' m = position st m \/ (position st m = None /\ position st' m = Some 0).

Lemma entered_trans : forall a b c, entered a b -> entered b c -> entered a c.
Proof. intros a b c A B m. destruct (A m) as [E|[E E']], (B m) as [F|[F F']]; try (left; congruence); right; split; congruence. Qed.

Lemma mut_spec : forall st n st', node_circuit_units_mut g st n = Some st' -> units st' = units st /\ next_id st' = next_id st /\ entered st st' /\ (exists k, position st' n = Some k) /\ (forall m, m <> n -> position st' m = position st m).
Proof.
  intros st n st' H. unfold node_circuit_units_mut in H. destruct (position st n) as [k|] eqn:P.
  - injection H as <-. split; [reflexivity|]. split; [reflexivity|]. split; [intros m; left; reflexivity|]. split; [exists k; exact P|reflexivity].
  - destruct (signature g n) as [s|]; [|discriminate]. injection H as <-. simpl. split; [reflexivity|]. split; [reflexivity|]. split.
    + intros m. simpl. destruct (Nat.eqb m n) eqn:E; [apply Nat.eqb_eq in E; subst; right; auto|left; reflexivity].
    + rewrite Nat.eqb_refl. split; [exists 0; reflexivity|]. intros m D. apply Nat.eqb_neq in D. rewrite D. reflexivity.
Qed.
Lemma mut_some : forall st n s, signature g n = Some s -> exists st', node_circuit_units_mut g st n = Some st'.
Proof. intros st n s H. unfold node_circuit_units_mut. destruct (position st n); [eauto|]. rewrite H. eauto. Qed.

Lemma set_same : forall st n p u, units (set st n p u) n p = u.
Proof. intros. unfold set. simpl. rewrite Nat.eqb_refl. destruct (port_dec p p); [reflexivity|congruence]. Qed.
Lemma set_other : forall st n p u m q, ~ (m = n /\ q = p) -> units (set st n p u) m q = units st m q.
Proof. intros. unfold set. simpl. destruct (Nat.eqb m n) eqn:E; [apply Nat.eqb_eq in E|reflexivity]. destruct (port_dec q p); [exfalso; auto|reflexivity]. Qed.

Lemma alloc_spec : forall st n p t, has_type g n p t -> (exists w, from_connected_port g n p = Some w) ->
  exists u st', allocate_circuit_unit g st n p = Some (u, st') /\ units st' = units st /\ position st' = position st /\ next_id st <= next_id st' /\
    (copyable g t = true -> exists w, from_connected_port g n p = Some w /\ u = Copyable w) /\
    (copyable g t = false -> exists r, u = Resource r /\ next_id st <= r < next_id st').
Proof.
  intros st n p t H [w W]. apply has_type_iff in H. unfold allocate_circuit_unit. rewrite H. unfold type_is_linear.
  destruct (copyable g t) eqn:C; simpl.
  - rewrite W. exists (Copyable w), st. split; [reflexivity|]. split; [reflexivity|]. split; [reflexivity|]. split; [lia|]. split; [intros _; exists w; auto|discriminate].
  - eexists. eexists. split; [reflexivity|]. simpl. split; [reflexivity|]. split; [reflexivity|]. split; [lia|]. split; [discriminate|]. intros _. eexists. split; [reflexivity|]. lia.
Qed.

(** One fresh unit followed by others. *)
Lemma fresh_cons : forall st st1 st' n p u t (P Q : nat -> port -> Prop), has_type g n p t ->
  next_id st <= next_id st1 -> (forall m q, ~ (m = n /\ q = p) -> units st1 m q = units st m q) -> units st1 n p = Some u ->
  (copyable g t = true -> exists w, from_connected_port g n p = Some w /\ u = Copyable w) -> (copyable g t = false -> exists r, u = Resource r /\ next_id st <= r < next_id st1) ->
  fresh st1 st' P -> (forall m q, {P m q} + {~ P m q}) -> (forall m q, Q m q <-> (m = n /\ q = p) \/ P m q) -> fresh st st' Q.
Proof.
  intros st st1 st' n p u t P Q Ht L O U Hc Hl (F1 & F2 & F3 & F4) D E. split; [lia|]. split; [|split].
  - intros m q N. rewrite F2 by (intros I; apply N, E; auto). apply O. intros I. apply N, E. auto.
  - intros m q I. apply E in I. destruct (D m q) as [J|J].
    + destruct (F3 m q J) as (t' & A & B & C). exists t'. split; [exact A|]. split; [exact B|]. intros X. destruct (C X) as (r & R1 & R2). exists r. split; [exact R1|lia].
    + destruct I as [[-> ->]|I]; [|contradiction]. exists t. split; [exact Ht|]. rewrite F2 by exact J. rewrite U. split.
      * intros X. destruct (Hc X) as (w & W & ->). exists w. auto.
      * intros X. destruct (Hl X) as (r & -> & R). exists r. split; [reflexivity|lia].
  - assert (Old : forall r, ~ P n p -> units st' n p = Some (Resource r) -> r < next_id st1).
    { intros r N X. rewrite F2 in X by exact N. rewrite U in X. injection X as ->. destruct (copyable g t) eqn:Ct; [destruct (Hc eq_refl) as (w & _ & X); discriminate|]. destruct (Hl eq_refl) as (r' & X & R). injection X as <-. lia. }
    assert (New : forall m q r, P m q -> units st' m q = Some (Resource r) -> next_id st1 <= r).
    { intros m q r I X. destruct (F3 m q I) as (t' & _ & B & C). destruct (copyable g t'); [destruct (B eq_refl) as (w & _ & Y); congruence|]. destruct (C eq_refl) as (r' & Y & Hr). rewrite X in Y. injection Y as <-. lia. }
    intros m q m' q' r I I' X X'. destruct (D m q) as [J|J], (D m' q') as [J'|J'].
    + eapply F4; eauto.
    + apply E in I'. destruct I' as [[-> ->]|?]; [|contradiction]. specialize (New _ _ _ J X). specialize (Old _ J' X'). lia.
    + apply E in I. destruct I as [[-> ->]|?]; [|contradiction]. specialize (New _ _ _ J' X'). specialize (Old _ J X). lia.
    + apply E in I, I'. destruct I as [[-> ->]|?]; [|contradiction]. destruct I' as [[-> ->]|?]; [|contradiction]. auto.
Qed.
Lemma fresh_nil : forall st (P : nat -> port -> Prop), (forall m q, ~ P m q) -> fresh st st P.
Proof. intros st P N. split; [lia|]. split; [reflexivity|]. split; [intros m q I; destruct (N _ _ I)|intros m q m' q' r I; destruct (N _ _ I)]. Qed.

Definition listed (ports : list (nat * nat)) (m : nat) (q : port) : Prop := fst q = Incoming /\ In (m, snd q) ports.
Lemma listed_dec : forall ports m q, {listed ports m q} + {~ listed ports m q}.
Proof.
  intros ports m q. unfold listed. destruct (direction_dec (fst q) Incoming) as [E|E]; [|right; tauto].
  destruct (in_dec pair_dec (m, snd q) ports); [left; auto|right; tauto].
Qed.
Lemma assign_spec : forall ports st, (forall n i, In (n, i) ports -> (exists t, has_type g n (Incoming, i) t) /\ exists w, source g n i = Some w) ->
  exists st', assign_circuit_units g st ports = Some st' /\ fresh st st' (listed ports) /\ entered st st' /\ (forall m i, In (m, i) ports -> exists k, position st' m = Some k) /\
    (forall m, ~ In m (map fst ports) -> position st' m = position st m).
Proof.
  induction ports as [|[n i] ports IH]; intros st H.
  - exists st. split; [reflexivity|]. split; [apply fresh_nil; intros m q [_ []]|]. split; [intros m; left; reflexivity|]. split; [intros m i []|reflexivity].
  - destruct (H n i (or_introl eq_refl)) as [[t T] [w W]]. destruct (alloc_spec st n (Incoming, i) t T) as (u & st1 & A & B & C & D & E & F); [exists w; exact W|].
    destruct (signed _ _ _ T) as [s S]. destruct (mut_some st1 n s S) as [st2 M]. destruct (mut_spec _ _ _ M) as (M1 & M2 & M3 & (k & M4) & M5).
    destruct (IH (set st2 n (Incoming, i) (Some u))) as (st' & I1 & I2 & I3 & I4 & I5); [intros m j J; apply H; right; exact J|].
    exists st'. cbn [assign_circuit_units]. rewrite A, M. split; [exact I1|]. split; [|split; [|split]].
    + eapply (fresh_cons st (set st2 n (Incoming, i) (Some u)) st' n (Incoming, i) u t (listed ports)); try exact I2; try exact T.
      * simpl. lia.
      * intros m q N. rewrite set_other by exact N. rewrite M1, B. reflexivity.
      * apply set_same.
      * exact E.
      * intros X. destruct (F X) as (r & R1 & R2). exists r. split; [exact R1|]. simpl. lia.
      * apply listed_dec.
      * intros m [d j]. unfold listed. simpl. split; [intros [-> [X|X]]; [injection X as <- <-; left; auto|right; auto]|]. intros [[-> X]|[-> X]]; [injection X as -> ->; auto|auto].
    + eapply entered_trans; [|exact I3]. intros m. destruct (M3 m) as [X|X]; rewrite C in X; [left; exact X|right; exact X].
    + intros m j [X|J]; [|eapply I4; eauto]. injection X as <- <-. destruct (I3 n) as [X|[X Y]]; simpl in X; [exists k; rewrite X; exact M4|congruence].
    + intros m N. simpl in N. rewrite I5 by tauto. simpl. rewrite M5 by (intros ->; tauto). rewrite C. reflexivity.
Qed.

(** ** Paths *)
Variable keeps : nat -> nat -> option nat.
Hypothesis Hv : valid g.
Hypothesis Hs : sensible g keeps.
Variable order : list nat.
Hypothesis Ho : topological g nodes order.
Notation step := (step g nodes keeps).
Notation reaches := (reaches g nodes keeps).

Definition pred_of (a : nat * port) : option (nat * port) :=
  match a with
  | (m, (Incoming, i)) => match source g m i with Some (n, p) => if contains nodes n then Some (n, (Outgoing, p)) else None | None => None end
  | (n, (Outgoing, j)) => match keeps n j with Some i => Some (n, (Incoming, i)) | None => None end
  end.
Lemma linear_across : forall n p m i, In (m, i) (targets g n p) -> linear g m (Incoming, i) <-> linear g n (Outgoing, p).
Proof.
  intros n p m i I. apply (links g Hv) in I. destruct (targeted g Hv _ _ _ _ I) as [t T]. destruct (connected g Hv _ _ _ T) as (n' & p' & E & T'). rewrite I in E. injection E as <- <-.
  unfold linear. split; intros (t' & A & B); exists t; (split; [assumption|]).
  - rewrite (has_type_fun _ _ _ _ T A). exact B.
  - rewrite (has_type_fun _ _ _ _ T' A). exact B.
Qed.
Lemma step_pred : forall a b, In (fst b) nodes -> linear g (fst b) (snd b) -> (step a b <-> pred_of b = Some a).
Proof.
  intros a [m [[] i]] Hm L; simpl in Hm, L; split.
  - intros S. inversion S; subst. simpl. match goal with X : In _ (targets _ _ _) |- _ => apply (links g Hv) in X; rewrite X end. match goal with X : In ?n nodes |- context [contains nodes ?n] => apply contains_In in X; rewrite X end. reflexivity.
  - simpl. destruct (source g m i) as [[n p]|] eqn:E; [|discriminate]. destruct (contains nodes n) eqn:C; [|discriminate]. intros X. injection X as <-. apply contains_In in C. apply (links g Hv) in E.
    constructor; auto. apply (linear_across _ _ _ _ E). exact L.
  - intros S. inversion S; subst. simpl. match goal with X : keeps _ _ = _ |- _ => rewrite X end. reflexivity.
  - simpl. destruct (keeps m i) as [j|] eqn:E; [|discriminate]. intros X. injection X as <-. constructor; auto.
Qed.
Lemma step_inv : forall a b, step a b -> (exists n p m i, a = (n, (Outgoing, p)) /\ b = (m, (Incoming, i)) /\ In n nodes /\ In m nodes /\ linear g n (Outgoing, p) /\ In (m, i) (targets g n p)) \/
  (exists n i j, a = (n, (Incoming, i)) /\ b = (n, (Outgoing, j)) /\ In n nodes /\ keeps n j = Some i).
Proof. intros a b S. destruct S; [left; exists n, p, m, i; auto 8|right; exists n, i, j; auto]. Qed.
Lemma step_fun : forall a b c, step a b -> step a c -> b = c.
Proof.
  intros a b c A B. apply step_inv in A, B. destruct A as [(n & p & m & i & -> & -> & _ & _ & L & I)|(n & i & j & -> & -> & _ & K)].
  - destruct B as [(n' & p' & m' & i' & E & -> & _ & _ & _ & I')|(n' & i' & j' & E & _)]; [|discriminate]. injection E as <- <-.
    assert (U := used_once g Hv _ _ L). destruct (targets g n p) as [|x [|y l]]; [destruct I| |simpl in U; lia]. destruct I as [->|[]]. destruct I' as [X|[]]. congruence.
  - destruct B as [(n' & p' & m' & i' & E & _)|(n' & i' & j' & E & -> & _ & K')]; [discriminate|]. injection E as <- <-. destruct Hs as [_ Hi]. rewrite (Hi _ _ _ _ K K'). reflexivity.
Qed.
Lemma step_linear : forall a b, step a b -> In (fst a) nodes /\ linear g (fst a) (snd a) /\ In (fst b) nodes /\ linear g (fst b) (snd b).
Proof.
  intros a b S. inversion S; subst; simpl.
  - split; [auto|]. split; [auto|]. split; [auto|]. apply (linear_across _ _ _ _ H2). exact H1.
  - destruct Hs as [Hk _]. destruct (Hk _ _ _ H0). auto.
Qed.

(** Depth in the order. *)
Fixpoint rank_in (n : nat) (l : list nat) : nat := match l with [] => 0 | x :: l => if Nat.eqb x n then 0 else S (rank_in n l) end.
Definition rank n := rank_in n order.
Definition height (a : nat * port) : nat := 2 * rank (fst a) + match fst (snd a) with Incoming => 0 | Outgoing => 1 end.
Lemma rank_split : forall l1 n l2, ~ In n l1 -> rank_in n (l1 ++ n :: l2) = length l1.
Proof. induction l1 as [|x l1 IH]; intros n l2 N; simpl; [rewrite Nat.eqb_refl; reflexivity|]. destruct (Nat.eqb x n) eqn:E; [apply Nat.eqb_eq in E; exfalso; apply N; left; auto|]. rewrite IH; [reflexivity|]. intros I. apply N. right. exact I. Qed.
Lemma rank_after : forall l1 n l2 m, NoDup (l1 ++ n :: l2) -> In m l2 -> length l1 < rank_in m (l1 ++ n :: l2).
Proof.
  induction l1 as [|x l1 IH]; intros n l2 m N I; simpl in *.
  - inversion N; subst. destruct (Nat.eqb n m) eqn:E; [apply Nat.eqb_eq in E; subst; contradiction|lia].
  - inversion N; subst. destruct (Nat.eqb x m) eqn:E; [apply Nat.eqb_eq in E; subst; exfalso; apply H1, in_or_app; right; right; exact I|]. specialize (IH n l2 m H2 I). lia.
Qed.
Lemma rank_link : forall n p m i, In n nodes -> In m nodes -> In (m, i) (targets g n p) -> rank n < rank m.
Proof.
  intros n p m i In_ Im L. destruct Ho as (N & E & T). assert (X := proj2 (E n) In_). apply in_split in X. destruct X as (l1 & l2 & X). unfold rank.
  rewrite X in N |- *. rewrite rank_split by (intros Y; apply NoDup_remove_2 in N; apply N, in_or_app; auto). apply rank_after; [exact N|]. eapply T; eauto.
Qed.
Lemma step_height : forall a b, step a b -> height a < height b.
Proof. intros a b S. inversion S; subst; unfold height; simpl; [assert (X := rank_link _ _ _ _ H H0 H2); lia|lia]. Qed.
Lemma reaches_height : forall a b, reaches a b -> a = b \/ height a < height b.
Proof. intros a b R. induction R as [|a b c S R IH]; [left; reflexivity|]. right. apply step_height in S. destruct IH as [->|IH]; lia. Qed.
Lemma reaches_trans : forall a b c, reaches a b -> step b c -> reaches a c.
Proof. intros a b c R S. induction R as [|a b d S' R IH]; [econstructor; [exact S|constructor]|]. econstructor; [exact S'|]. apply IH. exact S. Qed.
Lemma reaches_linear : forall s a b, reaches s a -> reaches s b -> reaches a b \/ reaches b a.
Proof.
  intros s a b A. revert b. induction A as [s|s c a S A IH]; intros b B; [left; exact B|].
  destruct B as [|c' b S' B]; [right; econstructor; eauto|]. rewrite (step_fun _ _ _ S' S) in B. apply IH. exact B.
Qed.

(** A labelling of ports by units. *)
Definition root (a : nat * port) : Prop := In (fst a) nodes /\ linear g (fst a) (snd a) /\ pred_of a = None.
Definition lab (st : state) (a : nat * port) : option unit := units st (fst a) (snd a).
Definition closed (st : state) : Prop := forall a b u, step a b -> lab st b = Some u -> lab st a = Some u.
Definition distinct (st : state) : Prop := forall a b r, root a -> root b -> lab st a = Some (Resource r) -> lab st b = Some (Resource r) -> a = b.

Lemma has_root : forall st, closed st -> forall k a u, height a < k -> In (fst a) nodes -> linear g (fst a) (snd a) -> lab st a = Some u -> exists s, root s /\ reaches s a /\ lab st s = Some u.
Proof.
  intros st Hc. induction k as [|k IH]; intros a u Hk Hn L U; [lia|].
  destruct (pred_of a) as [b|] eqn:P.
  - apply step_pred in P; auto. assert (X := step_height _ _ P). destruct (step_linear _ _ P) as (Bn & Bl & _). assert (Ub := Hc _ _ _ P U).
    destruct (IH b u ltac:(lia) Bn Bl Ub) as (s & S1 & S2 & S3). exists s. split; [exact S1|]. split; [eapply reaches_trans; eauto|exact S3].
  - exists a. split; [repeat split; auto|]. split; [constructor|exact U].
Qed.
Lemma same_path : forall st, closed st -> distinct st -> forall a b r, In (fst a) nodes -> linear g (fst a) (snd a) -> In (fst b) nodes -> linear g (fst b) (snd b) ->
  lab st a = Some (Resource r) -> lab st b = Some (Resource r) -> reaches a b \/ reaches b a.
Proof.
  intros st Hc Hd a b r An Al Bn Bl A B. destruct (has_root st Hc _ a _ (Nat.lt_succ_diag_r _) An Al A) as (s & S1 & S2 & S3). destruct (has_root st Hc _ b _ (Nat.lt_succ_diag_r _) Bn Bl B) as (s' & S1' & S2' & S3').
  assert (s = s') by (eapply Hd; eauto). subst s'. eapply reaches_linear; eauto.
Qed.
Lemma reaches_same : forall st, closed st -> (forall n p, In n nodes -> linear g n p -> exists r, units st n p = Some (Resource r)) -> forall a b, reaches a b -> lab st a = lab st b.
Proof.
  intros st Hc Ha a b R. induction R as [|a b c S R IH]; [reflexivity|]. rewrite <- IH. destruct (step_linear _ _ S) as (_ & _ & Bn & Bl). destruct (Ha _ _ Bn Bl) as [r E].
  change (lab st b = Some (Resource r)) in E. rewrite E. eapply Hc; eauto.
Qed.
Lemma same_side : forall st, closed st -> distinct st -> forall n d i j r, In n nodes -> linear g n (d, i) -> linear g n (d, j) -> units st n (d, i) = Some (Resource r) -> units st n (d, j) = Some (Resource r) -> i = j.
Proof.
  intros st Hc Hd n d i j r Hn Li Lj A B.
  assert (X : reaches (n, (d, i)) (n, (d, j)) \/ reaches (n, (d, j)) (n, (d, i))) by (eapply same_path; eauto).
  destruct X as [X|X]; apply reaches_height in X; (destruct X as [X|X]; [injection X; auto|unfold height in X; simpl in X; lia]).
Qed.

(** ** Extending a labelling *)
Definition kinds (st : state) : Prop := forall n p t u, In n nodes -> has_type g n p t -> units st n p = Some u ->
  (copyable g t = true -> exists w, from_connected_port g n p = Some w /\ u = Copyable w) /\ (copyable g t = false -> exists r, u = Resource r).
Definition bound (st : state) : Prop := forall a r, lab st a = Some (Resource r) -> r < next_id st.
Definition new_kind (st st' : state) (b : nat * port) : Prop := exists t, has_type g (fst b) (snd b) t /\
  (copyable g t = true -> exists w, from_connected_port g (fst b) (snd b) = Some w /\ lab st' b = Some (Copyable w)) /\
  (copyable g t = false -> exists r, lab st' b = Some (Resource r) /\ next_id st <= r < next_id st').

Lemma extend_inv : forall st st' (P : nat * port -> Prop), (forall b, {P b} + {~ P b}) ->
  closed st -> distinct st -> kinds st -> bound st -> next_id st <= next_id st' ->
  (forall b, ~ P b -> lab st' b = lab st b) -> (forall b, P b -> lab st b = None) ->
  (forall b, P b -> (pred_of b = None /\ new_kind st st' b) \/
     (exists a, ~ P a /\ lab st' b = lab st a /\ pred_of b = Some a) \/ (exists t, has_type g (fst b) (snd b) t /\ copyable g t = true /\ exists w, from_connected_port g (fst b) (snd b) = Some w /\ lab st' b = Some (Copyable w))) ->
  (forall b, P b -> exists t, has_type g (fst b) (snd b) t) ->
  (forall b b' r, P b -> P b' -> pred_of b = None -> pred_of b' = None -> lab st' b = Some (Resource r) -> lab st' b' = Some (Resource r) -> b = b') ->
  closed st' /\ distinct st' /\ kinds st' /\ bound st'.
Proof.
  intros st st' P D Hc Hd Hk Hb Hn Ho' Hp Hnew Ht Hi.
  assert (Cop : forall b t w, P b -> has_type g (fst b) (snd b) t -> copyable g t = true -> linear g (fst b) (snd b) -> lab st' b = Some (Copyable w) -> False).
  { intros b t w _ T C (t' & T' & C') _. rewrite (has_type_fun _ _ _ _ T T') in C. congruence. }
  split; [|split; [|split]].
  - intros a b u S U. assert (L := step_linear _ _ S). destruct L as (An & Al & Bn & Bl). destruct (D b) as [Pb|Pb].
    + assert (Q := proj1 (step_pred a b Bn Bl) S). destruct (Hnew b Pb) as [[N _]|[(a' & Na & E & Q')|(t & T & C & w & _ & W)]]; [congruence| |exfalso; eapply Cop; eauto].
      rewrite Q in Q'. injection Q' as <-. rewrite Ho' by exact Na. congruence.
    + rewrite Ho' in U by exact Pb. assert (V := Hc _ _ _ S U). destruct (D a) as [Pa|Pa]; [rewrite Hp in V by exact Pa; discriminate|]. rewrite Ho' by exact Pa. exact V.
  - assert (R : forall b r, root b -> P b -> lab st' b = Some (Resource r) -> next_id st <= r).
    { intros b r (Bn & Bl & Bp) Pb E. destruct (Hnew b Pb) as [[_ (t & T & K1 & K2)]|[(a' & _ & _ & Q')|(t & T & C & w & _ & W)]]; [|congruence|congruence].
      destruct (copyable g t); [destruct (K1 eq_refl) as (w & _ & X); congruence|]. destruct (K2 eq_refl) as (r' & X & Y). rewrite E in X. injection X as <-. lia. }
    intros a b r Ra Rb A B. destruct (D a) as [Pa|Pa], (D b) as [Pb|Pb].
    + eapply Hi; eauto; [apply Ra|apply Rb].
    + rewrite Ho' in B by exact Pb. apply Hb in B. specialize (R _ _ Ra Pa A). lia.
    + rewrite Ho' in A by exact Pa. apply Hb in A. specialize (R _ _ Rb Pb B). lia.
    + rewrite Ho' in A, B by assumption. eapply Hd; eauto.
  - intros n p t u Hnn T U. change (units st' n p) with (lab st' (n, p)) in U. destruct (D (n, p)) as [Pb|Pb].
    + destruct (Hnew _ Pb) as [[_ (t' & T' & K1 & K2)]|[(a & Na & E & Q)|(t' & T' & C & w & W & E)]]; simpl in *.
      * rewrite (has_type_fun _ _ _ _ T' T) in *. split; [intros C; destruct (K1 C) as (w & W & X); exists w; split; [exact W|congruence]|intros C; destruct (K2 C) as (r & X & _); exists r; congruence].
      * rewrite E in U. destruct a as [m q]. destruct p as [[] i]; simpl in Q.
        -- destruct (source g n i) as [[n' p']|] eqn:S; [|discriminate]. destruct (contains nodes n') eqn:Cn; [|discriminate]. injection Q as <- <-. apply contains_In in Cn.
           destruct (connected g Hv _ _ _ T) as (n2 & p2 & S2 & T2). rewrite S in S2. injection S2 as <- <-. destruct (Hk n' (Outgoing, p') t u Cn T2 U) as [K1 K2]. split; [|exact K2].
           intros C. destruct (K1 C) as (w & W & X). simpl in W. injection W as <-. exists (n', p'). split; [unfold from_connected_port; simpl; exact S|exact X].
        -- destruct (keeps n i) as [j|] eqn:K; [|discriminate]. injection Q as <- <-. destruct Hs as [Hkk _]. destruct (Hkk _ _ _ K) as [(t1 & T1 & C1) (t2 & T2 & C2)].
           rewrite (has_type_fun _ _ _ _ T2 T) in C2. split; [congruence|]. intros _. destruct (Hk n (Incoming, j) t1 u Hnn T1 U) as [_ K2]. exact (K2 C1).
      * rewrite (has_type_fun _ _ _ _ T' T) in *. split; [intros _; exists w; split; [exact W|congruence]|congruence].
    + rewrite Ho' in U by exact Pb. exact (Hk n p t u Hnn T U).
  - intros a r U. destruct (D a) as [Pb|Pb].
    + destruct (Hnew _ Pb) as [[_ (t' & T' & K1 & K2)]|[(b & Na & E & Q)|(t' & T' & C & w & W & E)]].
      * destruct (copyable g t'); [destruct (K1 eq_refl) as (w & _ & X); congruence|]. destruct (K2 eq_refl) as (r' & X & Y). rewrite U in X. injection X as <-. lia.
      * rewrite E in U. apply Hb in U. lia.
      * congruence.
    + rewrite Ho' in U by exact Pb. apply Hb in U. lia.
Qed.

(** ** The invariant *)
Variable incoming : list (nat * nat).
Hypothesis Hin : entries g nodes incoming.

Record good (st : state) : Prop := { g_closed : closed st; g_distinct : distinct st; g_kinds : kinds st; g_bound : bound st }.
(** The ports with units. *)
Definition labelled (don : list nat) (b : nat * port) : Prop :=
  (exists t, has_type g (fst b) (snd b) t) /\
  (In (fst b) don \/ match snd b with (Incoming, i) => In (fst b, i) incoming \/ exists n p, source g (fst b) i = Some (n, p) /\ In n don /\ In (fst b) nodes | (Outgoing, _) => False end).
Record inv (don : list nat) (st : state) : Prop := {
  i_good : good st;
  i_lab : forall b, lab st b <> None <-> labelled don b;
  i_pos : forall b, lab st b <> None -> exists k, position st (fst b) = Some k;
  i_scope : forall m k, position st m = Some k -> In m nodes;
  i_done : forall n s, In n don -> signature g n = Some s -> exists k, position st n = Some k;
  i_incr : forall n p m i, In n don -> In m nodes -> In (m, i) (targets g n p) -> exists k l, position st n = Some k /\ position st m = Some l /\ k < l
}.

Lemma entered_some : forall st st' m k, entered st st' -> position st m = Some k -> position st' m = Some k.
Proof. intros st st' m k E H. destruct (E m) as [X|[X Y]]; congruence. Qed.

Lemma good_ext : forall st st' (P : nat * port -> Prop), (forall b, {P b} + {~ P b}) -> good st -> next_id st <= next_id st' ->
  (forall b, ~ P b -> lab st' b = lab st b) -> (forall b, P b -> lab st b = None) ->
  (forall b, P b -> (pred_of b = None /\ new_kind st st' b) \/
     (exists a, ~ P a /\ lab st' b = lab st a /\ pred_of b = Some a) \/ (exists t, has_type g (fst b) (snd b) t /\ copyable g t = true /\ exists w, from_connected_port g (fst b) (snd b) = Some w /\ lab st' b = Some (Copyable w))) ->
  (forall b, P b -> exists t, has_type g (fst b) (snd b) t) ->
  (forall b b' r, P b -> P b' -> pred_of b = None -> pred_of b' = None -> lab st' b = Some (Resource r) -> lab st' b' = Some (Resource r) -> b = b') -> good st'.
Proof. intros st st' P D [A B C E] F G H I J K. destruct (extend_inv st st' P D A B C E F G H I J K) as (X1 & X2 & X3 & X4). constructor; assumption. Qed.

(** Fresh units for ports without predecessor. *)
Lemma good_fresh : forall st st' (P : nat -> port -> Prop), (forall m q, {P m q} + {~ P m q}) -> good st -> fresh st st' P -> (forall m q, P m q -> units st m q = None /\ pred_of (m, q) = None) -> good st'.
Proof.
  intros st st' P D G (F1 & F2 & F3 & F4) H. apply (good_ext st st' (fun b => P (fst b) (snd b)) (fun b => D (fst b) (snd b)) G F1).
  - intros [m q] N. apply F2. exact N.
  - intros [m q] Pb. apply (H m q Pb).
  - intros [m q] Pb. left. split; [apply (H m q Pb)|]. destruct (F3 m q Pb) as (t & T). exists t. exact T.
  - intros [m q] Pb. destruct (F3 m q Pb) as (t & T & _). exists t. exact T.
  - intros [m q] [m' q'] r Pb Pb' _ _ A B. simpl in Pb, Pb'. destruct (F4 m q m' q' r Pb Pb' A B) as [-> ->]. reflexivity.
Qed.
Lemma fresh_lab : forall st st' P, fresh st st' P -> (forall m q, {P m q} + {~ P m q}) -> forall b, lab st' b <> None <-> P (fst b) (snd b) \/ lab st b <> None.
Proof.
  intros st st' P (F1 & F2 & F3 & F4) D [m q]. simpl. destruct (D m q) as [I|I].
  - split; [left; exact I|]. intros _. destruct (F3 m q I) as (t & _ & A & B). unfold lab. simpl. destruct (copyable g t); [destruct (A eq_refl) as (w & _ & ->); discriminate|destruct (B eq_refl) as (r & -> & _); discriminate].
  - unfold lab. simpl. rewrite (F2 m q I). tauto.
Qed.
Lemma good_initial : good initial.
Proof. constructor; [intros a b u _ U|intros a b r _ _ U|intros n p t u _ _ U|intros a r U]; discriminate. Qed.

Lemma start_inv : exists st, assign_circuit_units g initial incoming = Some st /\ inv [] st.
Proof.
  destruct (assign_spec incoming initial) as (st & A & F & E & P & P').
  { intros n i I. destruct (Hin n i I) as (_ & [t T] & _). split; [exists t; exact T|]. destruct (connected g Hv _ _ _ T) as (m & p & S & _). exists (m, p). exact S. }
  exists st. split; [exact A|]. constructor.
  - apply (good_fresh initial st (listed incoming) (listed_dec incoming) good_initial F). intros m [d i] [X I]. simpl in *. subst d. split; [reflexivity|]. destruct (Hin m i I) as (_ & _ & H).
    destruct (source g m i) as [[n p]|] eqn:S; [|reflexivity]. destruct (contains nodes n) eqn:C; [|reflexivity]. apply contains_In in C. destruct (H n p eq_refl C).
  - intros b. rewrite (fresh_lab _ _ _ F (listed_dec incoming)). unfold labelled, listed. destruct b as [m [d i]]. simpl. split.
    + intros [[-> I]|X]; [|congruence]. destruct (Hin m i I) as (_ & [t T] & _). split; [exists t; exact T|]. right. left. exact I.
    + intros [_ [[]|X]]. destruct d; [|destruct X]. destruct X as [X|(n & p & _ & [] & _)]. left. auto.
  - intros b L. apply (fresh_lab _ _ _ F (listed_dec incoming)) in L. destruct L as [[_ I]|X]; [|unfold lab, initial in X; simpl in X; congruence]. eapply P; eauto.
  - intros m k K. destruct (in_dec Nat.eq_dec m (map fst incoming)) as [X|X]; [|rewrite P' in K by exact X; discriminate]. apply in_map_iff in X. destruct X as ([a b] & X & J). simpl in X. subst a. apply (Hin m b J).
  - intros n s [].
  - intros n p m i [].
Qed.

(** ** One node *)
Section Node.
Variables (l1 : list nat) (n : nat) (l2 : list nat).
Hypothesis Hord : order = l1 ++ n :: l2.
Lemma n_node : In n nodes.
Proof. destruct Ho as (_ & E & _). apply E. rewrite Hord. apply in_or_app. right. left. reflexivity. Qed.
Lemma n_new : ~ In n l1.
Proof. destruct Ho as (N & _ & _). rewrite Hord in N. apply NoDup_remove_2 in N. intros I. apply N, in_or_app. auto. Qed.
Lemma before : forall m p i, In m nodes -> In (n, i) (targets g m p) -> In m l1.
Proof.
  intros m p i Hm I. assert (X := rank_link _ _ _ _ Hm n_node I). unfold rank in X. rewrite Hord in X. rewrite rank_split in X by exact n_new.
  destruct Ho as (N & E & T). apply E in Hm. rewrite Hord in Hm, N. apply in_app_or in Hm. destruct Hm as [Hm|[Hm|Hm]]; [exact Hm| |].
  - rewrite <- Hm in X. rewrite rank_split in X by exact n_new. lia.
  - assert (Y := rank_after _ _ _ _ N Hm). lia.
Qed.
Lemma after : forall p m i, In m nodes -> In (m, i) (targets g n p) -> ~ In m l1 /\ m <> n.
Proof.
  intros p m i Hm I. destruct Ho as (N & E & T). assert (X := T _ _ _ Hord _ _ _ I Hm). rewrite Hord in N. split.
  - intros Y. apply in_split in Y. destruct Y as (a & b & Y). rewrite Y in N. rewrite <- app_assoc in N. apply NoDup_remove_2 in N. apply N. apply in_or_app. right. apply in_or_app. right. right. exact X.
  - intros ->. apply NoDup_remove_2 in N. apply N, in_or_app. auto.
Qed.

Definition missing (st : state) (m : nat) (q : port) : Prop := m = n /\ fst q = Incoming /\ (exists t, has_type g n q t) /\ units st n q = None.
Lemma missing_dec : forall st m q, {missing st m q} + {~ missing st m q}.
Proof.
  intros st m q. unfold missing. destruct (Nat.eq_dec m n); [|right; tauto]. destruct (direction_dec (fst q) Incoming); [|right; tauto].
  destruct (units st n q) eqn:U; [right; intros (_ & _ & _ & X); discriminate|]. destruct (port_type g n q) as [t|] eqn:T.
  - left. repeat split; auto. exists t. apply has_type_iff. exact T.
  - right. intros (_ & _ & [t X] & _). apply has_type_iff in X. congruence.
Qed.
(** All inputs have units. *)
Record ready (st : state) : Prop := {
  r_good : good st;
  r_lab : forall b, lab st b <> None <-> labelled l1 b \/ (fst b = n /\ fst (snd b) = Incoming /\ exists t, has_type g n (snd b) t)
}.
Lemma not_done_out : forall st, inv l1 st -> forall j, units st n (Outgoing, j) = None.
Proof.
  intros st I j. destruct (units st n (Outgoing, j)) as [u|] eqn:U; [|reflexivity]. exfalso. destruct (proj1 (i_lab _ _ I (n, (Outgoing, j)))) as [_ X]; [unfold lab; simpl; congruence|]. simpl in X. destruct X as [X|[]]. exact (n_new X).
Qed.
Lemma missing_spec : forall st, inv l1 st -> exists st', assign_missing_circuit_units g st n = Some st' /\ ready st' /\ entered st st' /\ (forall m, m <> n -> position st' m = position st m).
Proof.
  intros st I. unfold assign_missing_circuit_units. destruct (signature g n) as [[ins outs]|] eqn:S.
  2: { exists st. split; [reflexivity|]. split; [|split; [intros m; left; reflexivity|reflexivity]]. constructor; [apply I|]. intros b. rewrite (i_lab _ _ I). split; [auto|]. intros [X|(_ & _ & t & (a & c & X & _))]; [exact X|congruence]. }
  set (ports := match position st n with None => seq 0 (length ins) | Some _ => filter (fun i => is_sentinel st n (Incoming, i)) (seq 0 (length ins)) end).
  assert (Lt : forall i, i < length ins <-> exists t, has_type g n (Incoming, i) t) by (intros i; rewrite <- types_length; unfold types; rewrite S; reflexivity).
  assert (Q : forall i, In i ports <-> missing st n (Incoming, i)).
  { intros i. unfold ports, missing. simpl. rewrite <- Lt. destruct (position st n) as [k|] eqn:P.
    - rewrite filter_In, in_seq. unfold is_sentinel. destruct (units st n (Incoming, i)); simpl; intuition (try lia; try discriminate).
    - rewrite in_seq. split; [intros X; repeat split; try lia|intros (_ & _ & X & _); lia].
      destruct (units st n (Incoming, i)) as [u|] eqn:U; [|reflexivity]. exfalso. destruct (i_pos _ _ I (n, (Incoming, i))) as [k K]; [unfold lab; simpl; congruence|]. simpl in K. congruence. }
  destruct (assign_spec (map (pair n) ports) st) as (st' & A & F & E & P & P').
  { intros m i J. apply in_map_iff in J. destruct J as (j & X & J). injection X as <- <-. apply Q in J. destruct J as (_ & _ & [t T] & _). split; [exists t; exact T|]. destruct (connected g Hv _ _ _ T) as (m & p & S' & _). exists (m, p). exact S'. }
  exists st'. split; [exact A|].
  assert (Lq : forall m q, listed (map (pair n) ports) m q <-> missing st m q).
  { intros m [d i]. unfold listed. simpl. split.
    - intros [-> J]. apply in_map_iff in J. destruct J as (j & X & J). injection X as <- <-. apply Q. exact J.
    - intros M. assert (M' := M). destruct M as (-> & X & _). simpl in X. subst d. split; [reflexivity|]. apply in_map. apply Q. exact M'. }
  assert (Fm : fresh st st' (missing st)).
  { destruct F as (F1 & F2 & F3 & F4). split; [exact F1|]. split; [intros m q N; apply F2; rewrite Lq; exact N|]. split; [intros m q M; apply F3; rewrite Lq; exact M|]. intros m q m' q' r M M'. apply F4; rewrite Lq; assumption. }
  split; [constructor|split; [exact E|]].
  - apply (good_fresh st st' (missing st) (missing_dec st) (i_good _ _ I) Fm). intros m [d i] (-> & X & [t T] & U). simpl in X. subst d. split; [exact U|]. simpl.
    destruct (source g n i) as [[m p]|] eqn:Sr; [|reflexivity]. destruct (contains nodes m) eqn:C; [|reflexivity]. exfalso. apply contains_In in C. assert (Tg := Sr). apply (links g Hv) in Tg. assert (D := before _ _ _ C Tg).
    apply (proj2 (i_lab _ _ I (n, (Incoming, i)))); [|exact U]. split; [exists t; exact T|]. right. simpl. right. exists m, p. split; [exact Sr|]. split; [exact D|exact n_node].
  - intros b. rewrite (fresh_lab _ _ _ Fm (missing_dec st)), (i_lab _ _ I). destruct b as [m [d i]]. simpl. split.
    + intros [(-> & X & T & _)|X]; [right; auto|left; exact X].
    + intros [X|(-> & -> & T)]; [right; exact X|]. destruct (units st n (Incoming, i)) as [u|] eqn:U; [right; apply (i_lab _ _ I); unfold lab; simpl; congruence|]. left. unfold missing. auto.
  - intros m D. apply P'. intros X. apply in_map_iff in X. destruct X as ([a b] & X & J). simpl in X. subst a. apply in_map_iff in J. destruct J as (j & X & _). congruence.
Qed.

(** *** Outputs *)
Lemma ready_units : forall st, ready st -> forall i, linear g n (Incoming, i) -> exists r, units st n (Incoming, i) = Some (Resource r).
Proof.
  intros st R i (t & T & C). destruct (units st n (Incoming, i)) as [u|] eqn:U.
  - destruct (g_kinds _ (r_good _ R) _ _ _ _ n_node T U) as [_ K]. destruct (K C) as [r ->]. exists r. reflexivity.
  - exfalso. apply (proj2 (r_lab _ R (n, (Incoming, i)))); [right; simpl; eauto|exact U].
Qed.
Lemma ready_out : forall st, ready st -> forall j, units st n (Outgoing, j) = None.
Proof.
  intros st R j. destruct (units st n (Outgoing, j)) as [u|] eqn:U; [|reflexivity]. exfalso. destruct (proj1 (r_lab _ R (n, (Outgoing, j)))) as [[_ X]|(_ & X & _)]; [unfold lab; simpl; congruence| |discriminate]. simpl in X. destruct X as [X|[]]. exact (n_new X).
Qed.
Lemma inp_nth : forall st i, nth_error (inp_resources g st n) i = if Nat.ltb i (length (types g n Incoming)) then Some (match units st n (Incoming, i) with Some u => as_resource u | None => None end) else None.
Proof.
  intros st i. unfold inp_resources. destruct (Nat.ltb i (length (types g n Incoming))) eqn:L.
  - apply Nat.ltb_lt in L. erewrite map_nth_error; [reflexivity|]. rewrite (nth_error_nth' _ 0) by (rewrite seq_length; exact L). rewrite seq_nth by exact L. reflexivity.
  - apply Nat.ltb_ge in L. apply nth_error_None. rewrite map_length, seq_length. exact L.
Qed.
Lemma ready_inputs : forall st, ready st -> inputs_of g n (inp_resources g st n).
Proof.
  intros st R. assert (A : forall i, linear g n (Incoming, i) <-> exists r, nth_error (inp_resources g st n) i = Some (Some r)).
  { intros i. rewrite inp_nth. split.
    - intros L. assert (X : i < length (types g n Incoming)) by (apply types_length; destruct L as (t & T & _); eauto). apply Nat.ltb_lt in X. rewrite X. destruct (ready_units st R i L) as [r ->]. exists r. reflexivity.
    - intros [r X]. destruct (Nat.ltb i _) eqn:L; [|discriminate]. apply Nat.ltb_lt, types_length in L. destruct L as [t T]. destruct (units st n (Incoming, i)) as [u|] eqn:U; [|discriminate].
      exists t. split; [exact T|]. destruct (copyable g t) eqn:C; [|reflexivity]. destruct (g_kinds _ (r_good _ R) _ _ _ _ n_node T U) as [K _]. destruct (K C) as (w & _ & ->). discriminate. }
  split; [exact A|]. split.
  - intros i j r X Y. assert (Li := proj2 (A i) (ex_intro _ r X)). assert (Lj := proj2 (A j) (ex_intro _ r Y)).
    assert (U : forall k, nth_error (inp_resources g st n) k = Some (Some r) -> units st n (Incoming, k) = Some (Resource r)).
    { intros k Z. rewrite inp_nth in Z. destruct (Nat.ltb k _); [|discriminate]. destruct (units st n (Incoming, k)) as [[r'|w]|]; simpl in Z; congruence. }
    eapply (same_side st (g_closed _ (r_good _ R)) (g_distinct _ (r_good _ R)) n Incoming i j r n_node Li Lj); auto.
  - intros ins outs S. unfold inp_resources, types. rewrite S, map_length, seq_length. reflexivity.
Qed.
Lemma index_of_unique : forall l r i, nth_error l i = Some (Some r) -> (forall j, nth_error l j = Some (Some r) -> j = i) -> index_of r l = Some i.
Proof.
  induction l as [|x l IH]; intros r i H U; [destruct i; discriminate|]. destruct i as [|i].
  - simpl in H. injection H as ->. simpl. rewrite Nat.eqb_refl. reflexivity.
  - simpl. assert (X : index_of r l = Some i) by (apply IH; [exact H|intros j J; specialize (U (S j) J); lia]). rewrite X. destruct x as [y|]; [|reflexivity].
    destruct (Nat.eqb y r) eqn:E; [|reflexivity]. apply Nat.eqb_eq in E. subst y. specialize (U 0 eq_refl). lia.
Qed.

(** What happens at a list of outgoing ports. *)
Definition outs_of (ports : list nat) (keep : bool) (m : nat) (q : port) : Prop := m = n /\ fst q = Outgoing /\ In (snd q) ports /\ (match keeps n (snd q) with Some _ => true | None => false end) = keep.
Lemma outs_dec : forall ports k m q, {outs_of ports k m q} + {~ outs_of ports k m q}.
Proof.
  intros ports k m q. unfold outs_of. destruct (Nat.eq_dec m n); [|right; tauto]. destruct (direction_dec (fst q) Outgoing); [|right; tauto].
  destruct (in_dec Nat.eq_dec (snd q) ports); [|right; tauto]. destruct (bool_dec (match keeps n (snd q) with Some _ => true | None => false end) k); [left; auto|right; tauto].
Qed.
Lemma set_outputs_spec : forall inp outs ports st,
  (forall i r, nth_error inp i = Some (Some r) -> units st n (Incoming, i) = Some (Resource r)) ->
  (forall i j r, nth_error inp i = Some (Some r) -> nth_error inp j = Some (Some r) -> i = j) ->
  (forall j, nth j outs None = match keeps n j with Some i => nth i inp None | None => None end) ->
  (forall j i, keeps n j = Some i -> exists r, nth_error inp i = Some (Some r)) ->
  NoDup ports -> (forall j, In j ports -> exists t, has_type g n (Outgoing, j) t) ->
  exists st', set_outputs g st n inp outs ports = Some st' /\ position st' = position st /\ next_id st <= next_id st' /\
    (forall m q, ~ (m = n /\ fst q = Outgoing /\ In (snd q) ports) -> units st' m q = units st m q) /\
    (forall j i, In j ports -> keeps n j = Some i -> units st' n (Outgoing, j) = units st n (Incoming, i)) /\
    (exists mid, next_id mid = next_id st /\ (forall m q, ~ outs_of ports false m q -> units mid m q = units st' m q) /\ fresh mid st' (outs_of ports false)).
Proof.
  intros inp outs. induction ports as [|p ports IH]; intros st H1 H2 H3 H4 N T.
  - exists st. split; [reflexivity|]. split; [reflexivity|]. split; [lia|]. split; [reflexivity|]. split; [intros j i []|]. exists st. split; [reflexivity|]. split; [reflexivity|]. apply fresh_nil. intros m q (_ & _ & [] & _).
  - inversion N as [|? ? N1 N2]; subst. cbn [set_outputs]. destruct (keeps n p) as [i|] eqn:K.
    + destruct (H4 _ _ K) as [r Hr]. assert (E : nth p outs None = Some r) by (rewrite H3, K; apply nth_error_nth; exact Hr). rewrite E.
      rewrite (index_of_unique inp r i Hr) by (intros j J; eapply H2; eauto).
      destruct (IH (set st n (Outgoing, p) (units st n (Incoming, i)))) as (st' & A & B & C & D & F & (mid & M1 & M2 & M3)); auto.
      * intros j r' J. rewrite set_other by (intros [_ X]; discriminate). apply H1. exact J.
      * intros j J. apply T. right. exact J.
      * exists st'. split; [exact A|]. split; [exact B|]. split; [exact C|]. split; [|split].
        -- intros m q X. rewrite D by (intros (Y1 & Y2 & Y3); apply X; split; [exact Y1|]; split; [exact Y2|right; exact Y3]). apply set_other. intros [-> ->]. apply X. split; [reflexivity|]. split; [reflexivity|left; reflexivity].
        -- intros j i' [<-|J] Kj.
           ++ rewrite K in Kj. injection Kj as <-. rewrite D by (intros (_ & _ & X); exact (N1 X)). apply set_same.
           ++ rewrite (F j i' J Kj). apply set_other. intros [_ X]; discriminate.
        -- assert (Eq : forall m q, outs_of (p :: ports) false m q <-> outs_of ports false m q).
           { intros m [d j]. unfold outs_of. simpl. split; [intros (-> & -> & [<-|J] & X); [rewrite K in X; discriminate|auto]|intros (-> & -> & J & X); auto]. }
           exists mid. split; [exact M1|]. split; [intros m q X; apply M2; rewrite <- Eq; exact X|].
           destruct M3 as (F1 & F2 & F3 & F4). split; [exact F1|]. split; [intros m q X; apply F2; rewrite <- Eq; exact X|]. split; [intros m q X; apply F3; rewrite <- Eq; exact X|]. intros m q m' q' r' X X'. apply F4; rewrite <- Eq; assumption.
    + assert (E : nth p outs None = None) by (rewrite H3, K; reflexivity). rewrite E. destruct (T p (or_introl eq_refl)) as [t Ht].
      destruct (alloc_spec st n (Outgoing, p) t Ht) as (u & st1 & A1 & A2 & A3 & A4 & A5 & A6); [exists (n, p); reflexivity|]. rewrite A1.
      destruct (IH (set st1 n (Outgoing, p) (Some u))) as (st' & A & B & C & D & F & (mid & M1 & M2 & M3)); auto.
      * intros j r' J. rewrite set_other by (intros [_ X]; discriminate). rewrite A2. apply H1. exact J.
      * intros j J. apply T. right. exact J.
      * exists st'. split; [exact A|]. split; [rewrite B; simpl; exact A3|]. simpl in C. split; [lia|]. split; [|split].
        -- intros m q X. rewrite D by (intros (Y1 & Y2 & Y3); apply X; split; [exact Y1|]; split; [exact Y2|right; exact Y3]). rewrite set_other by (intros [-> ->]; apply X; split; [reflexivity|]; split; [reflexivity|left; reflexivity]). rewrite A2. reflexivity.
        -- intros j i' [<-|J] Kj; [congruence|]. rewrite (F j i' J Kj). rewrite set_other by (intros [_ X]; discriminate). rewrite A2. reflexivity.
        -- assert (Up : units st' n (Outgoing, p) = Some u) by (rewrite D by (intros (_ & _ & X); exact (N1 X)); apply set_same).
           simpl in M1.
           set (mid0 := {| units := fun m q => if Nat.eqb m n then if port_dec q (Outgoing, p) then None else units mid m q else units mid m q; position := position mid; next_id := next_id st |}).
           assert (M0 : forall m q, ~ (m = n /\ q = (Outgoing, p)) -> units mid0 m q = units mid m q).
           { intros m q X. unfold mid0. simpl. destruct (Nat.eqb m n) eqn:Em; [apply Nat.eqb_eq in Em|reflexivity]. destruct (port_dec q (Outgoing, p)); [exfalso; auto|reflexivity]. }
           exists mid0. split; [reflexivity|]. split.
           ++ intros m q X. assert (~ (m = n /\ q = (Outgoing, p))) by (intros [-> ->]; apply X; split; [reflexivity|]; split; [reflexivity|]; simpl; rewrite K; auto).
              rewrite M0 by assumption. apply M2. intros (Y1 & Y2 & Y3 & Y4). apply X. split; [exact Y1|]. split; [exact Y2|]. split; [right; exact Y3|exact Y4].
           ++ eapply (fresh_cons mid0 mid st' n (Outgoing, p) u t (outs_of ports false)); try exact M3; try exact Ht.
              ** unfold mid0. simpl. lia.
              ** intros m q X. symmetry. apply M0. exact X.
              ** rewrite M2; [exact Up|]. intros (_ & _ & X & _). exact (N1 X).
              ** exact A5.
              ** intros X. destruct (A6 X) as (r & R1 & R2). exists r. split; [exact R1|]. unfold mid0. simpl. lia.
              ** apply outs_dec.
              ** intros m [d j]. unfold outs_of. simpl. split.
                 --- intros (-> & -> & [<-|J] & X); [left; auto|right; auto].
                 --- intros [[-> X]|(-> & -> & J & X)]; [injection X as -> ->; rewrite K; auto|auto].
Qed.
Record finished (st : state) : Prop := {
  f_good : good st;
  f_lab : forall b, lab st b <> None <-> labelled l1 b \/ (fst b = n /\ exists t, has_type g n (snd b) t)
}.
Variable flows : list flow.
Hypothesis Hf : forall f, In f flows -> respects g keeps f.
Hypothesis Hsup : supported g nodes flows.
Lemma find_map_spec : forall l, inputs_of g n l -> exists outs, find_map flows n l = Some outs /\ forall j, nth j outs None = match keeps n j with Some i => nth i l None | None => None end.
Proof.
  intros l Hl. destruct (Hsup n l n_node Hl) as (f & If & Ff). clear Hsup. induction flows as [|h fs IH]; [destruct If|]. simpl. destruct (h n l) as [outs|] eqn:E.
  - exists outs. split; [reflexivity|]. apply (Hf h (or_introl eq_refl) n l outs Hl E).
  - destruct If as [->|If]; [congruence|]. apply IH; auto. intros f' I'. apply Hf. right. exact I'.
Qed.
Lemma outputs_spec : forall st, ready st -> exists st', propagate_to_outputs g flows st n = Some st' /\ finished st' /\ entered st st' /\ (forall m, m <> n -> position st' m = position st m) /\ (forall s, signature g n = Some s -> exists k, position st' n = Some k).
Proof.
  intros st R. unfold propagate_to_outputs. destruct (signature g n) as [s|] eqn:S.
  2: { assert (M : node_circuit_units_mut g st n = Some st \/ node_circuit_units_mut g st n = None) by (unfold node_circuit_units_mut; destruct (position st n); [auto|rewrite S; auto]).
       assert (Fin : finished st).
       { constructor; [apply R|]. intros b. rewrite (r_lab _ R). split; [intros [X|(_ & _ & t & (a & c & X & _))]; [auto|congruence]|intros [X|(_ & t & (a & c & X & _))]; [auto|congruence]]. }
       assert (Ty : forall d, types g n d = []) by (intros d; unfold types; rewrite S; reflexivity).
       destruct M as [-> | ->].
       - destruct (find_map_spec _ (ready_inputs _ R)) as (outs & -> & _). rewrite Ty. simpl. exists st. split; [reflexivity|]. split; [exact Fin|]. split; [intros m; left; reflexivity|]. split; [reflexivity|discriminate].
       - exists st. split; [reflexivity|]. split; [exact Fin|]. split; [intros m; left; reflexivity|]. split; [reflexivity|discriminate]. }
  destruct (mut_some st n s S) as [st1 M]. rewrite M. destruct (mut_spec _ _ _ M) as (M1 & M2 & M3 & M4 & M5).
  assert (R1 : ready st1).
  { destruct R as [[G1 G2 G3 G4] L]. constructor; [constructor|].
    - intros a b u. unfold lab. rewrite M1. apply G1.
    - intros a b r. unfold lab. rewrite M1. apply G2.
    - intros m p t u. rewrite M1. apply G3.
    - intros a r. unfold lab. rewrite M1, M2. apply G4.
    - intros b. unfold lab. rewrite M1. apply L. }
  assert (Hi := ready_inputs _ R1). destruct (find_map_spec _ Hi) as (outs & -> & Hou). destruct Hi as (Hi1 & Hi2 & Hi3).
  destruct (set_outputs_spec (inp_resources g st1 n) outs (seq 0 (length (types g n Outgoing))) st1) as (st' & A & B & C & D & F & (mid & Q1 & Q2 & Q3)).
  - intros i r X. rewrite inp_nth in X. destruct (Nat.ltb i _); [|discriminate]. destruct (units st1 n (Incoming, i)) as [[r'|w]|]; simpl in X; congruence.
  - exact Hi2.
  - exact Hou.
  - intros j i K. apply Hi1. destruct Hs as [Hk _]. apply (Hk _ _ _ K).
  - apply seq_NoDup.
  - intros j J. apply in_seq in J. apply types_length. lia.
  - exists st'. split; [exact A|].
    assert (Tseq : forall q, fst q = Outgoing -> (In (snd q) (seq 0 (length (types g n Outgoing))) <-> exists t, has_type g n q t)).
    { intros [d j] X. simpl in *. subst d. rewrite <- types_length, in_seq. lia. }
    assert (Old : forall q, fst q = Outgoing -> units st1 n q = None) by (intros [d j] X; simpl in X; subst d; apply (ready_out _ R1)).
    assert (Hl : forall b, lab st' b <> None <-> lab st1 b <> None \/ (fst b = n /\ fst (snd b) = Outgoing /\ exists t, has_type g n (snd b) t)).
    { intros [m q]. simpl. destruct (Nat.eq_dec m n) as [->|Dm]; [|unfold lab; simpl; rewrite D by tauto; intuition]. destruct (direction_dec (fst q) Outgoing) as [Eq|Dq]; [|unfold lab; simpl; rewrite D by tauto; intuition].
      destruct (port_type g n q) as [t|] eqn:Tq.
      - apply has_type_iff in Tq. assert (Is := proj2 (Tseq q Eq) (ex_intro _ t Tq)). split; [intros _; right; eauto|]. intros _. unfold lab. simpl. destruct q as [d j]. simpl in Eq. subst d. destruct (keeps n j) as [i|] eqn:K.
        + rewrite (F j i Is K). destruct Hs as [Hk _]. destruct (ready_units _ R1 i (proj1 (Hk _ _ _ K))) as [r ->]. discriminate.
        + destruct Q3 as (_ & _ & F3 & _). destruct (F3 n (Outgoing, j)) as (t' & _ & X & Y); [split; [reflexivity|]; split; [reflexivity|]; split; [exact Is|]; simpl; rewrite K; reflexivity|].
          destruct (copyable g t'); [destruct (X eq_refl) as (w & _ & ->); discriminate|destruct (Y eq_refl) as (r & -> & _); discriminate].
      - assert (Nt : ~ exists t, has_type g n q t) by (intros [t X]; apply has_type_iff in X; congruence). unfold lab. simpl. rewrite D by (intros (_ & _ & X); apply Tseq in X; auto). rewrite Old by exact Eq. intuition. }
    split; [constructor|split; [|split]].
    + apply (good_ext st1 st' (fun b => fst b = n /\ fst (snd b) = Outgoing /\ exists t, has_type g n (snd b) t)).
      * intros [m q]. simpl. destruct (Nat.eq_dec m n); [|right; tauto]. destruct (direction_dec (fst q) Outgoing); [|right; tauto]. destruct (port_type g n q) as [t|] eqn:Tq; [left; repeat split; auto; exists t; apply has_type_iff; exact Tq|right; intros (_ & _ & t & X); apply has_type_iff in X; congruence].
      * apply R1.
      * exact C.
      * intros [m q] X. unfold lab. simpl in *. apply D. intros (-> & Y & Z). apply X. split; [reflexivity|]. split; [exact Y|]. apply Tseq; assumption.
      * intros [m q] (X & Y & _). simpl in *. subst m. unfold lab. simpl. apply Old. exact Y.
      * intros [m [d j]] (X & Y & Z). simpl in X, Y. subst m d. simpl in Z. assert (Is : In j (seq 0 (length (types g n Outgoing)))) by (apply (Tseq (Outgoing, j) eq_refl); exact Z). destruct (keeps n j) as [i|] eqn:K.
        -- right. left. exists (n, (Incoming, i)). split; [intros (_ & W & _); discriminate|]. unfold lab. simpl. rewrite K. split; [apply F; assumption|reflexivity].
        -- left. simpl. rewrite K. split; [reflexivity|]. destruct Q3 as (_ & _ & F3 & _). destruct (F3 n (Outgoing, j)) as (t & T1 & T2 & T3); [split; [reflexivity|]; split; [reflexivity|]; split; [exact Is|]; simpl; rewrite K; reflexivity|].
           exists t. split; [exact T1|]. split; [exact T2|]. intros Ct. destruct (T3 Ct) as (r & Ur & Br). exists r. split; [exact Ur|]. rewrite Q1 in Br. exact Br.
      * intros [m q] (X & _ & Z). simpl in X. subst m. exact Z.
      * intros [m [d j]] [m' [d' j']] r (X & Y & Z) (X' & Y' & Z') Pn Pn' U U'. simpl in X, Y, X', Y'. subst m d m' d'. simpl in Z, Z', Pn, Pn'. destruct (keeps n j) eqn:K; [discriminate|]. destruct (keeps n j') eqn:K'; [discriminate|].
        destruct Q3 as (_ & _ & _ & F4). destruct (F4 n (Outgoing, j) n (Outgoing, j') r) as [_ E]; auto.
        -- split; [reflexivity|]. split; [reflexivity|]. split; [apply (Tseq (Outgoing, j) eq_refl); exact Z|]. simpl. rewrite K. reflexivity.
        -- split; [reflexivity|]. split; [reflexivity|]. split; [apply (Tseq (Outgoing, j') eq_refl); exact Z'|]. simpl. rewrite K'. reflexivity.
        -- rewrite E. reflexivity.
    + intros b. rewrite Hl, (r_lab _ R1). destruct b as [m [[] j]]; simpl; intuition discriminate.
    + intros m. rewrite B. apply M3.
    + intros m X. rewrite B. apply M5. exact X.
    + intros s' _. rewrite B. exact M4.
Qed.

(** *** The next inputs *)
Definition raised (st st' : state) (pos : nat) (Q : nat -> Prop) : Prop :=
  (forall m, ~ Q m -> position st' m = position st m) /\
  (forall m, Q m -> exists l, position st' m = Some l /\ pos < l) /\
  (forall m k, position st m = Some k -> exists l, position st' m = Some l /\ k <= l).
Lemma set_targets_spec : forall u pos ts st, (forall m i, In (m, i) ts -> exists s, signature g m = Some s) ->
  let st' := set_targets g nodes st pos u ts in
  next_id st' = next_id st /\
  (forall m i, In (m, i) ts -> In m nodes -> units st' m (Incoming, i) = u) /\
  (forall m q, ~ (fst q = Incoming /\ In (m, snd q) ts /\ In m nodes) -> units st' m q = units st m q) /\
  raised st st' pos (fun m => In m nodes /\ exists i, In (m, i) ts).
Proof.
  intros u pos. induction ts as [|[m i] ts IH]; intros st H; cbn zeta; cbn [set_targets].
  - split; [reflexivity|]. split; [intros m i []|]. split; [reflexivity|]. split; [reflexivity|]. split; [intros m (_ & i & [])|]. intros m k P. exists k. split; [exact P|lia].
  - destruct (contains nodes m) eqn:C.
    + apply contains_In in C. destruct (H m i (or_introl eq_refl)) as [s Sg]. destruct (mut_some st m s Sg) as [st1 M]. rewrite M. destruct (mut_spec _ _ _ M) as (M1 & M2 & M3 & (k0 & M4) & M5).
      match goal with |- context [set_targets g nodes ?x pos u ts] => set (st2 := x) end.
      destruct (IH st2) as (A & B & D & (E1 & E2 & E3)); [intros m' i' J; eapply H; right; exact J|]. simpl in A.
      assert (P2 : position st2 m = Some (Nat.max k0 (S pos))) by (unfold st2; simpl; rewrite Nat.eqb_refl, M4; reflexivity).
      assert (P2' : forall m', m' <> m -> position st2 m' = position st m') by (intros m' X; unfold st2; simpl; apply Nat.eqb_neq in X; rewrite X; apply M5; apply Nat.eqb_neq; exact X).
      assert (U2 : forall m' q, ~ (m' = m /\ q = (Incoming, i)) -> units st2 m' q = units st m' q) by (intros m' q X; change (units st2 m' q) with (units (set st1 m (Incoming, i) u) m' q); rewrite set_other by exact X; rewrite M1; reflexivity).
      assert (U2' : units st2 m (Incoming, i) = u) by apply set_same.
      split; [rewrite A; exact M2|]. split; [|split; [|split; [|split]]].
      * intros m' i' J Hm'. destruct (in_dec pair_dec (m', i') ts) as [J'|J']; [apply B; assumption|]. destruct J as [J|J]; [|contradiction]. injection J as <- <-. rewrite D; [exact U2'|]. simpl. tauto.
      * intros m' q X. rewrite D by (intros (Y1 & Y2 & Y3); apply X; split; [exact Y1|]; split; [right; exact Y2|exact Y3]). apply U2. intros [-> ->]. apply X. split; [reflexivity|]. split; [left; reflexivity|exact C].
      * intros m' X. rewrite E1 by (intros (Y1 & i' & Y2); apply X; split; [exact Y1|]; exists i'; right; exact Y2). apply P2'. intros ->. apply X. split; [exact C|]. exists i. left. reflexivity.
      * intros m' (Y1 & i' & [J|J]); [|apply E2; eauto]. injection J as <- <-. destruct (E3 m _ P2) as (l & L1 & L2). exists l. split; [exact L1|lia].
      * intros m' k P. destruct (Nat.eq_dec m' m) as [->|X].
        -- destruct (E3 m _ P2) as (l & L1 & L2). exists l. split; [exact L1|]. assert (k = k0) by (destruct (M3 m) as [Y|[Y _]]; congruence). lia.
        -- apply E3. rewrite P2' by exact X. exact P.
    + assert (Nm : ~ In m nodes) by (intros X; apply contains_In in X; congruence). destruct (IH st) as (A & B & D & (E1 & E2 & E3)); [intros m' i' J; eapply H; right; exact J|].
      split; [exact A|]. split; [intros m' i' [J|J] Hm'; [injection J as <- <-; contradiction|apply B; assumption]|]. split.
      * intros m' q X. apply D. intros (Y1 & Y2 & Y3). apply X. split; [exact Y1|]. split; [right; exact Y2|exact Y3].
      * split; [|split].
        -- intros m' X. apply E1. intros (Y1 & i' & Y2). apply X. split; [exact Y1|]. exists i'. right. exact Y2.
        -- intros m' (Y1 & i' & [J|J]); [injection J as <- <-; contradiction|apply E2; eauto].
        -- exact E3.
Qed.
Lemma propagate_ports_spec : forall pos ports st, NoDup ports -> (forall p m i, In p ports -> In (m, i) (targets g n p) -> exists s, signature g m = Some s) ->
  let st' := propagate_ports g nodes st n pos ports in
  next_id st' = next_id st /\
  (forall p m i, In p ports -> In (m, i) (targets g n p) -> In m nodes -> units st' m (Incoming, i) = units st n (Outgoing, p)) /\
  (forall m q, ~ (fst q = Incoming /\ In m nodes /\ exists p, In p ports /\ In (m, snd q) (targets g n p)) -> units st' m q = units st m q) /\
  raised st st' pos (fun m => In m nodes /\ exists p i, In p ports /\ In (m, i) (targets g n p)).
Proof.
  intros pos. induction ports as [|p ports IH]; intros st N H; cbn zeta; cbn [propagate_ports].
  - split; [reflexivity|]. split; [intros p m i []|]. split; [reflexivity|]. split; [reflexivity|]. split; [intros m (_ & p & i & [] & _)|]. intros m k P. exists k. split; [exact P|lia].
  - inversion N as [|? ? N1 N2]; subst. destruct (set_targets_spec (units st n (Outgoing, p)) pos (targets g n p) st) as (A1 & A2 & A3 & (A4 & A5 & A6)); [intros m i J; eapply H; [left; reflexivity|exact J]|].
    set (st1 := set_targets g nodes st pos (units st n (Outgoing, p)) (targets g n p)) in *.
    destruct (IH st1 N2) as (B1 & B2 & B3 & (B4 & B5 & B6)); [intros q m i J; eapply H; right; exact J|].
    assert (Out : forall q, units st1 n (Outgoing, q) = units st n (Outgoing, q)) by (intros q; apply A3; simpl; intros [X _]; discriminate).
    split; [lia|]. split; [|split; [|split; [|split]]].
    + intros q m i J T Hm. destruct J as [<-|J]; [|rewrite (B2 q m i J T Hm); apply Out].
      rewrite B3; [apply A2; assumption|]. simpl. intros (_ & _ & q & J & T'). apply (links g Hv) in T, T'. rewrite T in T'. injection T' as <-. exact (N1 J).
    + intros m q X. rewrite B3 by (intros (Y1 & Y2 & p' & Y3 & Y4); apply X; split; [exact Y1|]; split; [exact Y2|]; exists p'; split; [right; exact Y3|exact Y4]). apply A3. intros (Y1 & Y2 & Y3). apply X. split; [exact Y1|]. split; [exact Y3|]. exists p. split; [left; reflexivity|exact Y2].
    + intros m X. rewrite B4 by (intros (Y1 & p' & i & Y2 & Y3); apply X; split; [exact Y1|]; exists p', i; split; [right; exact Y2|exact Y3]). apply A4. intros (Y1 & i & Y2). apply X. split; [exact Y1|]. exists p, i. split; [left; reflexivity|exact Y2].
    + intros m (Y1 & p' & i & [<-|Y2] & Y3); [|apply B5; eauto]. destruct (A5 m) as (l & L1 & L2); [eauto|]. destruct (B6 m l L1) as (l' & L3 & L4). exists l'. split; [exact L3|lia].
    + intros m k P. destruct (A6 m k P) as (l & L1 & L2). destruct (B6 m l L1) as (l' & L3 & L4). exists l'. split; [exact L3|lia].
Qed.

Lemma node_step : forall st, inv l1 st -> exists st1 st2 st3, assign_missing_circuit_units g st n = Some st1 /\ propagate_to_outputs g flows st1 n = Some st2 /\ propagate_to_next_inputs g nodes st2 n = Some st3 /\ inv (l1 ++ [n]) st3.
Proof.
  intros st I. destruct (missing_spec st I) as (st1 & A1 & A2 & A3 & A4). destruct (outputs_spec st1 A2) as (st2 & B1 & B2 & B3 & B4 & B5).
  assert (En := entered_trans _ _ _ A3 B3). assert (Ps : forall m, m <> n -> position st2 m = position st m) by (intros m X; rewrite B4, A4; auto).
  exists st1, st2. unfold propagate_to_next_inputs. destruct (signature g n) as [[ins outs]|] eqn:S.
  2: { exists st2. split; [exact A1|]. split; [exact B1|]. split; [reflexivity|].
       assert (Nt : forall q t, ~ has_type g n q t) by (intros q t (a & b & X & _); congruence).
       assert (Nl : forall p m i, ~ In (m, i) (targets g n p)).
       { intros p m i X. apply (links g Hv) in X. destruct (targeted g Hv _ _ _ _ X) as [t T]. destruct (connected g Hv _ _ _ T) as (n' & p' & Y & T'). rewrite X in Y. injection Y as <- <-. exact (Nt _ _ T'). }
       constructor.
       - apply B2.
       - intros b. rewrite (f_lab _ B2). unfold labelled. destruct b as [m [d i]]. simpl. split.
         + intros [[T [X|X]]|(-> & t & T)]; [| |destruct (Nt _ _ T)]; (split; [exact T|]); [left; apply in_or_app; auto|right]. destruct d; [|exact X]. destruct X as [X|(a & p & X1 & X2 & X3)]; [left; exact X|right]. exists a, p. split; [exact X1|]. split; [apply in_or_app; auto|exact X3].
         + intros [[t T] [X|X]]; left; (split; [exists t; exact T|]).
           * apply in_app_or in X. destruct X as [X|[<-|[]]]; [left; exact X|destruct (Nt _ _ T)].
           * right. destruct d; [|exact X]. destruct X as [X|(a & p & X1 & X2 & X3)]; [left; exact X|right]. exists a, p. split; [exact X1|]. split; [|exact X3]. apply in_app_or in X2. destruct X2 as [X2|[<-|[]]]; [exact X2|]. apply (links g Hv) in X1. destruct (Nl _ _ _ X1).
       - intros b X. apply (f_lab _ B2) in X. destruct X as [X|(_ & t & T)]; [|destruct (Nt _ _ T)]. apply (i_lab _ _ I) in X. destruct (i_pos _ _ I _ X) as [k K]. exists k. eapply entered_some; eauto.
       - intros m k K. destruct (Nat.eq_dec m n) as [->|X]; [exact n_node|]. rewrite Ps in K by exact X. eapply (i_scope _ _ I); eauto.
       - intros m s X Sm. apply in_app_or in X. destruct X as [X|[<-|[]]]; [|congruence]. destruct (i_done _ _ I _ _ X Sm) as [k K]. exists k. eapply entered_some; eauto.
       - intros a p m i X Hm T. apply in_app_or in X. destruct X as [X|[<-|[]]]; [|destruct (Nl _ _ _ T)]. destruct (i_incr _ _ I _ _ _ _ X Hm T) as (k & l & K1 & K2 & K3). exists k, l. split; [eapply entered_some; eauto|]. split; [eapply entered_some; eauto|exact K3]. }
  destruct (B5 _ eq_refl) as [pos P]. rewrite P.
  destruct (propagate_ports_spec pos (seq 0 (length outs)) st2 (seq_NoDup _ _)) as (C1 & C2 & C3 & (C4 & C5 & C6)).
  { intros p m i _ T. apply (links g Hv) in T. destruct (targeted g Hv _ _ _ _ T) as [t Ty]. eapply signed; eauto. }
  set (st3 := propagate_ports g nodes st2 n pos (seq 0 (length outs))) in *. exists st3. split; [exact A1|]. split; [exact B1|]. split; [reflexivity|].
  assert (Tp : forall p m i, In (m, i) (targets g n p) -> In p (seq 0 (length outs)) /\ exists t, has_type g m (Incoming, i) t /\ has_type g n (Outgoing, p) t).
  { intros p m i T. apply (links g Hv) in T. destruct (targeted g Hv _ _ _ _ T) as [t Ty]. destruct (connected g Hv _ _ _ Ty) as (n' & p' & X & Ty'). rewrite T in X. injection X as <- <-.
    split; [|exists t; auto]. apply in_seq. assert (L := proj2 (types_length n Outgoing p) (ex_intro _ t Ty')). unfold types in L. rewrite S in L. lia. }
  (* the ports that get units *)
  set (Pn := fun b : nat * port => fst (snd b) = Incoming /\ In (fst b) nodes /\ exists p, source g (fst b) (snd (snd b)) = Some (n, p)).
  assert (Dn : forall b, {Pn b} + {~ Pn b}).
  { intros [m [d i]]. unfold Pn. simpl. destruct (direction_dec d Incoming); [|right; tauto]. destruct (in_dec Nat.eq_dec m nodes); [|right; tauto].
    destruct (source g m i) as [[a p]|]; [|right; intros (_ & _ & p & X); discriminate]. destruct (Nat.eq_dec a n) as [->|X]; [left; eauto|right; intros (_ & _ & p' & Y); congruence]. }
  assert (Un : forall b, Pn b -> lab st2 b = None).
  { intros [m [d i]] (X & Hm & p & T). simpl in X, Hm, T. subst d. destruct (lab st2 (m, (Incoming, i))) eqn:U; [exfalso|exact U]. assert (T' := T). apply (links g Hv) in T'. destruct (after _ _ _ Hm T') as [Nd Ne].
    destruct (proj1 (f_lab _ B2 (m, (Incoming, i)))) as [[_ Y]|[Y _]]; [congruence| |simpl in Y; congruence]. simpl in Y. destruct Y as [Y|[Y|(a & q & Y & Y' & _)]]; [contradiction| |].
    - destruct (Hin _ _ Y) as (_ & _ & Z). exact (Z _ _ T n_node).
    - rewrite T in Y. injection Y as <- <-. exact (n_new Y'). }
  assert (Lo : forall b, ~ Pn b -> lab st3 b = lab st2 b).
  { intros [m [d i]] X. unfold lab. simpl. apply C3. simpl. intros (-> & Hm & p & _ & T). apply X. unfold Pn. simpl. split; [reflexivity|]. split; [exact Hm|]. exists p. apply (links g Hv). exact T. }
  assert (Ln : forall b, Pn b -> exists p, pred_of b = Some (n, (Outgoing, p)) /\ lab st3 b = lab st2 (n, (Outgoing, p))).
  { intros [m [d i]] (X & Hm & p & T). simpl in X, Hm, T. subst d. exists p. simpl. rewrite T. assert (Cn := proj2 (contains_In n) n_node). rewrite Cn. split; [reflexivity|]. unfold lab. simpl. assert (T' := T). apply (links g Hv) in T'. apply C2; [apply (Tp _ _ _ T')|exact T'|exact Hm]. }
  assert (Lt : forall b, lab st3 b <> None <-> Pn b \/ lab st2 b <> None).
  { intros b. destruct (Dn b) as [X|X]; [|rewrite (Lo b X); tauto]. split; [auto|]. intros _. destruct b as [m [d i]]. destruct (Ln _ X) as (p & Q & ->). destruct X as (X & Hm & p' & T). simpl in *. subst d. assert (T' := T). apply (links g Hv) in T'. rewrite T in Q. destruct (contains nodes n); [|discriminate]. injection Q as ->.
    apply (f_lab _ B2). right. simpl. split; [reflexivity|]. destruct (Tp _ _ _ T') as (_ & t & _ & Ty). exists t. exact Ty. }
  assert (Pk : forall m k, position st m = Some k -> exists l, position st3 m = Some l /\ k <= l) by (intros m k K; apply C6; eapply entered_some; eauto).
  assert (P0 : forall m, In m l1 \/ m = n -> position st3 m = position st2 m).
  { intros m X. apply C4. intros (Hm & p & i & _ & T). destruct (after _ _ _ Hm T) as [Y Z]. destruct X; contradiction. }
  constructor.
  - apply (good_ext st2 st3 Pn Dn (f_good _ B2)).
    + lia.
    + exact Lo.
    + exact Un.
    + intros b X. right. left. destruct (Ln b X) as (p & Q & L). exists (n, (Outgoing, p)). split; [intros (Y & _); discriminate|]. auto.
    + intros [m [d i]] (X & Hm & p & T). simpl in *. subst d. apply (links g Hv) in T. destruct (Tp _ _ _ T) as (_ & t & Ty & _). exists t. exact Ty.
    + intros b b' r X X' Q. destruct (Ln b X) as (p & Q' & _). congruence.
  - intros b. rewrite Lt, (f_lab _ B2). unfold labelled. destruct b as [m [d i]]. unfold Pn. simpl. split.
    + intros [(-> & Hm & p & T)|[[Ty [X|X]]|(-> & Ty)]].
      * assert (T' := T). apply (links g Hv) in T'. destruct (Tp _ _ _ T') as (_ & t & Ty & _). split; [exists t; exact Ty|]. right. right. exists n, p. split; [exact T|]. split; [apply in_or_app; right; left; reflexivity|exact Hm].
      * split; [exact Ty|]. left. apply in_or_app. auto.
      * split; [exact Ty|]. right. destruct d; [|exact X]. destruct X as [X|(a & p & X1 & X2 & X3)]; [left; exact X|right]. exists a, p. split; [exact X1|]. split; [apply in_or_app; auto|exact X3].
      * split; [exact Ty|]. left. apply in_or_app. right. left. reflexivity.
    + intros [Ty [X|X]].
      * apply in_app_or in X. destruct X as [X|[<-|[]]]; right; [left; auto|right; auto].
      * destruct d; [|destruct X]. destruct X as [X|(a & p & X1 & X2 & X3)]; [right; left; split; [exact Ty|]; right; left; exact X|]. apply in_app_or in X2. destruct X2 as [X2|[<-|[]]].
        -- right. left. split; [exact Ty|]. right. right. exists a, p. auto.
        -- left. split; [reflexivity|]. split; [exact X3|]. exists p. exact X1.
  - intros [m [d i]] X. apply Lt in X. destruct X as [X|X].
    + destruct X as (E & Hm & p & T). simpl in *. subst d. apply (links g Hv) in T. destruct (C5 m) as (l & L & _); [split; [exact Hm|]; exists p, i; split; [apply (Tp _ _ _ T)|exact T]|]. exists l. exact L.
    + simpl. apply (f_lab _ B2) in X. destruct X as [X|[X _]].
      * apply (i_lab _ _ I) in X. destruct (i_pos _ _ I _ X) as [k K]. destruct (Pk _ _ K) as (l & L & _). exists l. exact L.
      * simpl in X. subst m. destruct (C6 n pos P) as (l & L & _). exists l. exact L.
  - intros m k K. destruct (in_dec Nat.eq_dec m nodes) as [X|X]; [exact X|]. rewrite C4 in K by (intros (Y & _); contradiction). destruct (Nat.eq_dec m n) as [->|Y]; [exact n_node|]. rewrite Ps in K by exact Y. eapply (i_scope _ _ I); eauto.
  - intros m s X Sm. apply in_app_or in X. destruct X as [X|[<-|[]]]; [|destruct (C6 n pos P) as (l & L & _); exists l; exact L]. destruct (i_done _ _ I _ _ X Sm) as [k K]. destruct (Pk _ _ K) as (l & L & _). exists l. exact L.
  - intros a p m i X Hm T. apply in_app_or in X. destruct X as [X|[<-|[]]].
    + destruct (i_incr _ _ I _ _ _ _ X Hm T) as (k & l & K1 & K2 & K3). exists k. destruct (Pk _ _ K2) as (l' & L1 & L2). exists l'. split; [rewrite P0 by auto; eapply entered_some; eauto|]. split; [exact L1|lia].
    + exists pos. destruct (C5 m) as (l & L1 & L2); [split; [exact Hm|]; exists p, i; split; [apply (Tp _ _ _ T)|exact T]|]. exists l. split; [rewrite P0 by auto; exact P|]. auto.
Qed.
End Node.

Variable flows : list flow.
Hypothesis Hf : forall f, In f flows -> respects g keeps f.
Hypothesis Hsup : supported g nodes flows.
Lemma propagate_spec : forall l2 l1 st, order = l1 ++ l2 -> inv l1 st -> exists st', propagate g nodes flows st l2 = Some st' /\ inv order st'.
Proof.
  induction l2 as [|n l2 IH]; intros l1 st E I; cbn [propagate].
  - rewrite app_nil_r in E. subst l1. exists st. auto.
  - destruct (node_step l1 n l2 E flows Hf Hsup st I) as (st1 & st2 & st3 & A & B & C & I3). rewrite A, B, C. apply (IH (l1 ++ [n])); [rewrite <- app_assoc; exact E|exact I3].
Qed.
Lemma linear_port : forall n p, linear g n p -> exists t, has_type g n p t.
Proof. intros n p (t & T & _). eauto. Qed.
Theorem compute_spec : exists st, compute_circuit_units g nodes flows incoming order = Some st /\ tracked g nodes keeps st /\ increasing g nodes st.
Proof.
  unfold compute_circuit_units. destruct start_inv as (st0 & -> & I0). destruct (propagate_spec order [] st0 eq_refl I0) as (st & E & I). exists st. split; [exact E|].
  assert (On : forall n, In n nodes -> In n order) by (destruct Ho as (_ & X & _); intros n Hn; apply X; exact Hn).
  assert (Lb : forall n p t, In n nodes -> has_type g n p t -> exists u, units st n p = Some u).
  { intros n p t Hn T. destruct (units st n p) as [u|] eqn:U; [eauto|]. exfalso. apply (proj2 (i_lab _ _ I (n, p))); [|exact U]. split; [eauto|]. left. apply On. exact Hn. }
  assert (Ln : forall n p, In n nodes -> linear g n p -> exists r, units st n p = Some (Resource r)).
  { intros n p Hn (t & T & C). destruct (Lb n p t Hn T) as [u U]. destruct (g_kinds _ (i_good _ _ I) _ _ _ _ Hn T U) as [_ K]. destruct (K C) as [r ->]. eauto. }
  split; [split; [exact Ln|split; [|split]]|split; [exact (i_scope _ _ I)|split]].
  - intros n i t Hn T C. destruct (Lb n _ t Hn T) as [u U]. destruct (g_kinds _ (i_good _ _ I) _ _ _ _ Hn T U) as [K _]. destruct (K C) as (w & W & ->). exists w. auto.
  - intros n i t Hn T C. destruct (Lb n _ t Hn T) as [u U]. destruct (g_kinds _ (i_good _ _ I) _ _ _ _ Hn T U) as [K _]. destruct (K C) as (w & W & ->). injection W as <-. exact U.
  - intros n p m q r Hn Hm Ln' Lm U. split.
    + intros U'. eapply (same_path st (g_closed _ (i_good _ _ I)) (g_distinct _ (i_good _ _ I)) (n, p) (m, q) r); auto.
    + intros [R|R]; apply (reaches_same st (g_closed _ (i_good _ _ I)) Ln) in R; unfold lab in R; simpl in R; congruence.
  - intros n Hn [s S]. apply (i_done _ _ I n s); auto.
  - intros n p m i Hn Hm T. eapply (i_incr _ _ I); eauto.
Qed.
End Scope.

(** ** The default flow *)
Section Default.
Variables (g : graph) (nodes : list nat).
Lemma all_copyable : forall l, (fix all l := match l with [] => true | t :: l => copyable g t && all l end) l = forallb (copyable g) l.
Proof. induction l as [|t l IH]; [reflexivity|]. simpl. rewrite IH. reflexivity. Qed.
Lemma preserving_iff : forall ins outs, is_resource_preserving g ins outs = true <-> forall i t, copyable g t = false -> (nth_error ins i = Some t <-> nth_error outs i = Some t).
Proof.
  assert (Al : forall l, forallb (copyable g) l = true <-> forall i t, copyable g t = false -> nth_error l i <> Some t).
  { intros l. rewrite forallb_forall. split; [intros H i t C X; apply nth_error_In in X; rewrite (H t X) in C; discriminate|]. intros H t I. apply In_nth_error in I. destruct I as [i I]. destruct (copyable g t) eqn:C; [reflexivity|]. destruct (H i t C I). }
  induction ins as [|a ins IH]; intros [|b outs].
  - simpl. split; [intros _ i t _; destruct i; tauto|reflexivity].
  - cbn [is_resource_preserving]. rewrite all_copyable. change (copyable g b && forallb (copyable g) outs) with (forallb (copyable g) (b :: outs)). rewrite Al. split.
    + intros H i t C. specialize (H i t C). split; [destruct i; discriminate|intros X; contradiction].
    + intros H i t C X. apply (H i t C) in X. destruct i; discriminate.
  - cbn [is_resource_preserving]. rewrite all_copyable. change (copyable g a && forallb (copyable g) ins) with (forallb (copyable g) (a :: ins)). rewrite Al. split.
    + intros H i t C. specialize (H i t C). split; [intros X; contradiction|destruct i; discriminate].
    + intros H i t C X. apply (H i t C) in X. destruct i; discriminate.
  - cbn [is_resource_preserving]. rewrite andb_true_iff, IH. split.
    + intros [A B] [|i] t C; [|exact (B i t C)]. simpl. destruct (copyable g a) eqn:Ca, (copyable g b) eqn:Cb; simpl in A.
      * split; intros X; injection X as <-; congruence.
      * apply Nat.eqb_eq in A. subst. tauto.
      * apply Nat.eqb_eq in A. subst. tauto.
      * apply Nat.eqb_eq in A. subst. tauto.
    + intros H. split; [|intros i t C; exact (H (S i) t C)]. destruct (negb (copyable g a) || negb (copyable g b)) eqn:E; [|reflexivity]. apply Nat.eqb_eq. apply orb_true_iff in E. destruct E as [E|E]; apply negb_true_iff in E.
      * assert (X := proj1 (H 0 a E) eq_refl). simpl in X. congruence.
      * assert (X := proj2 (H 0 b E) eq_refl). simpl in X. congruence.
Qed.
Lemma straight_iff : forall n, straight g n <-> is_resource_preserving g (types g n Incoming) (types g n Outgoing) = true.
Proof. intros n. rewrite preserving_iff. unfold straight. split; intros H i t C; specialize (H i t C); rewrite !has_type_iff in *; exact H. Qed.

Definition default_keeps (n j : nat) : option nat :=
  if is_resource_preserving g (types g n Incoming) (types g n Outgoing) then match port_type g n (Outgoing, j) with Some t => if copyable g t then None else Some j | None => None end else None.
Lemma default_keeps_iff : forall n j i, default_keeps n j = Some i <-> straight g n /\ linear g n (Outgoing, j) /\ i = j.
Proof.
  intros n j i. unfold default_keeps. rewrite straight_iff. destruct (is_resource_preserving g (types g n Incoming) (types g n Outgoing)); [|split; [discriminate|intros [X _]; discriminate]].
  unfold linear. destruct (port_type g n (Outgoing, j)) as [t|] eqn:T.
  - apply has_type_iff in T. destruct (copyable g t) eqn:C; split.
    + discriminate.
    + intros (_ & (t' & T' & C') & _). rewrite (has_type_fun g _ _ _ _ T T') in C. congruence.
    + intros X. injection X as <-. split; [reflexivity|]. split; [exists t; auto|reflexivity].
    + intros (_ & _ & ->). reflexivity.
  - split; [discriminate|]. intros (_ & (t & T' & _) & _). apply has_type_iff in T'. congruence.
Qed.
Variable keeps : nat -> nat -> option nat.
Hypothesis Hk : straight_only g keeps.
Lemma default_sensible : sensible g keeps.
Proof.
  split.
  - intros n j i K. apply Hk in K. destruct K as (S & L & ->). split; [|exact L]. destruct L as (t & T & C). exists t. split; [apply (S j t C); exact T|exact C].
  - intros n j j' i K K'. apply Hk in K, K'. destruct K as (_ & _ & ->). destruct K' as (_ & _ & ->). reflexivity.
Qed.
Lemma retain_nth : forall l ts j, nth j (retain_linear_types g l ts) None = match nth_error ts j with Some t => if copyable g t then None else nth j l None | None => None end.
Proof.
  intros l ts j. unfold retain_linear_types. destruct (nth_error ts j) as [t|] eqn:T.
  - assert (Lj : j < length ts) by (apply nth_error_Some; congruence).
    assert (R : nth_error (resize (length ts) l) j = Some (nth j l None)).
    { unfold resize. destruct (le_lt_dec (length l) j) as [Y|Y].
      - rewrite (nth_overflow l) by lia. rewrite nth_error_app2 by (rewrite firstn_length; lia). rewrite firstn_length. apply nth_error_repeat. lia.
      - rewrite nth_error_app1 by (rewrite firstn_length; lia). rewrite <- (firstn_skipn (length ts) l) at 2. rewrite app_nth1 by (rewrite firstn_length; lia). apply nth_error_nth'. rewrite firstn_length. lia. }
    apply nth_error_nth. apply (map_nth_error (fun '(t, r) => if copyable g t then None else r) j (combine ts (resize (length ts) l)) (d := (t, nth j l None))).
    clear - T R. revert T R. generalize (resize (length ts) l). generalize (nth j l None). revert j. induction ts as [|a ts IH]; intros [|j] x l' T R; try discriminate; destruct l' as [|b l']; try discriminate; simpl in *; [congruence|]. apply IH; assumption.
  - apply nth_error_None in T. apply nth_overflow. rewrite map_length, combine_length. lia.
Qed.
Lemma default_respects : respects g keeps (default_flow g).
Proof.
  intros n l outs Hl E j. unfold default_flow in E. injection E as <-. destruct (is_resource_preserving g (types g n Incoming) (types g n Outgoing)) eqn:P.
  - assert (S := proj2 (straight_iff n) P). rewrite retain_nth. destruct (keeps n j) as [i|] eqn:K.
    + apply Hk in K. destruct K as (_ & (t & T & C) & ->). apply has_type_iff in T. unfold port_type in T. simpl in T. rewrite T, C. reflexivity.
    + destruct (nth_error (types g n Outgoing) j) as [t|] eqn:T; [|reflexivity]. destruct (copyable g t) eqn:C; [reflexivity|]. exfalso. assert (X := proj2 (Hk n j j)). rewrite K in X. discriminate X. split; [exact S|]. split; [|reflexivity]. exists t. split; [apply has_type_iff; exact T|exact C].
  - destruct (keeps n j) as [i|] eqn:K; [apply Hk in K; destruct K as (S & _); apply straight_iff in S; congruence|].
    destruct (le_lt_dec (length (types g n Outgoing)) j) as [Y|Y]; [apply nth_overflow; rewrite repeat_length; exact Y|]. apply nth_error_nth. apply nth_error_repeat. exact Y.
Qed.
Lemma default_supported : supported g nodes [default_flow g].
Proof. intros n l _ _. exists (default_flow g). split; [left; reflexivity|]. discriminate. Qed.
End Default.
