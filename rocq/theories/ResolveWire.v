(** Proofs about the correspondence of ports. *)
From Coq Require Import List Arith Bool Lia Permutation.
From Verif Require Import ResolveModel ResolveSpec.
Import ListNotations.

Fixpoint takew {A} (f : A -> bool) (l : list A) : list A :=
  match l with [] => [] | x :: r => if f x then x :: takew f r else [] end.
Fixpoint dropw {A} (f : A -> bool) (l : list A) : list A :=
  match l with [] => [] | x :: r => if f x then dropw f r else l end.

Lemma take_drop : forall A (f : A -> bool) l, takew f l ++ dropw f l = l.
Proof. induction l; simpl; auto. destruct (f a); simpl; congruence. Qed.
Lemma take_all : forall A (f : A -> bool) l, forallb f (takew f l) = true.
Proof. induction l; simpl; auto. destruct (f a) eqn:E; simpl; rewrite ?E; auto. Qed.
Lemma drop_head : forall A (f : A -> bool) l x r, dropw f l = x :: r -> f x = false.
Proof. induction l; simpl; intros; [discriminate|]. destruct (f a) eqn:E; eauto. congruence. Qed.

Definition zipp (d : dir) (a : nat) (d' : dir) (b n : nat) : list (port * port) :=
  map (fun x => ((d, a + x), (d', b + x))) (seq 0 n).

Lemma zipp_S : forall d a d' b n,
  zipp d a d' b (S n) = ((d, a), (d', b)) :: zipp d (S a) d' (S b) n.
Proof.
  intros. unfold zipp. simpl. rewrite !Nat.add_0_r. f_equal.
  rewrite <- seq_shift, map_map. apply map_ext. intros x. f_equal; f_equal; lia.
Qed.

Lemma zipp_in : forall d a d' b n p, In p (zipp d a d' b n) <->
  exists x, x < n /\ p = ((d, a + x), (d', b + x)).
Proof.
  intros. unfold zipp. rewrite in_map_iff. split.
  - intros (x & E & H). apply in_seq in H. exists x. split; [lia|auto].
  - intros (x & E & H). exists x. split; auto. apply in_seq. lia.
Qed.

Lemma zipp_app : forall d a d' b n m,
  zipp d a d' b (n + m) = zipp d a d' b n ++ zipp d (a + n) d' (b + n) m.
Proof.
  intros. unfold zipp. rewrite seq_app, map_app. f_equal. simpl.
  assert (E : seq n m = map (fun x => n + x) (seq 0 m)).
  { clear. revert n. induction m; intros; simpl; auto. rewrite Nat.add_0_r. f_equal.
    rewrite (IHm (S n)), (IHm 1), map_map. apply map_ext. intros. lia. }
  rewrite E, map_map. apply map_ext. intros. f_equal; f_equal; lia.
Qed.

Lemma fst_zipp : forall d a d' b n, map fst (zipp d a d' b n) = map (pair d) (seq a n).
Proof.
  intros. revert a b. induction n; intros; auto. rewrite zipp_S. simpl. rewrite IHn. auto.
Qed.
Lemma snd_zipp : forall d a d' b n, map snd (zipp d a d' b n) = map (pair d') (seq b n).
Proof.
  intros. revert a b. induction n; intros; auto. rewrite zipp_S. simpl. rewrite IHn. auto.
Qed.

Lemma port_eqb_eq : forall a b, port_eqb a b = true <-> a = b.
Proof.
  intros [[] i] [[] j]; unfold port_eqb; simpl; rewrite ?Nat.eqb_eq; split; intros H;
    try discriminate; congruence.
Qed.

(** Entries of the correspondence are below the cursors. *)
Definition below (a b : nat) (m : list (port * port)) : Prop :=
  forall p, In p (map fst m) -> match p with (Incoming, i) => i < a | (Outgoing, i) => i < b end.

Lemma below_app : forall a b m m', below a b (m ++ m') <-> below a b m /\ below a b m'.
Proof.
  unfold below. intros. rewrite map_app. split.
  - intros H. split; intros p Hp; apply (H p); apply in_or_app; auto.
  - intros [H1 H2] p Hp. apply in_app_or in Hp. destruct Hp as [Hp|Hp]; [exact (H1 p Hp)|exact (H2 p Hp)].
Qed.
Lemma below_le : forall a b a' b' m, below a b m -> a <= a' -> b <= b' -> below a' b' m.
Proof. unfold below. intros. apply H in H2. destruct p as [[] i]; lia. Qed.
Lemma below_in : forall a b m new, below a b m -> below (S a) b (m ++ [((Incoming, a), new)]).
Proof.
  intros. apply below_app. split; [eapply below_le; eauto|]. intros p [E|[]]; simpl in E; subst. lia.
Qed.
Lemma below_out : forall a b m new, below a b m -> below a (S b) (m ++ [((Outgoing, b), new)]).
Proof.
  intros. apply below_app. split; [eapply below_le; eauto|]. intros p [E|[]]; simpl in E; subst. lia.
Qed.

Lemma insert_in : forall a b m new, below a b m ->
  map_insert (Incoming, a) new m = Some (m ++ [((Incoming, a), new)]).
Proof.
  intros. unfold map_insert. destruct (existsb _ m) eqn:E; auto.
  apply existsb_exists in E. destruct E as (e & He & E). apply port_eqb_eq in E.
  assert (L := H (fst e) (in_map fst _ _ He)). rewrite E in L. lia.
Qed.
Lemma insert_out : forall a b m new, below a b m ->
  map_insert (Outgoing, b) new m = Some (m ++ [((Outgoing, b), new)]).
Proof.
  intros. unfold map_insert. destruct (existsb _ m) eqn:E; auto.
  apply existsb_exists in E. destruct E as (e & He & E). apply port_eqb_eq in E.
  assert (L := H (fst e) (in_map fst _ _ He)). rewrite E in L. lia.
Qed.

Section Wiring.
Variable ty : Type.
Variable quantum : ty -> bool.
Notation cl := (fun t => negb (quantum t)).
Notation I := Incoming.

Definition cur a b c d m :=
  {| old_in := (I, a); old_out := (Outgoing, b); new_in := (I, c); new_out := (Outgoing, d); corresp := m |}.

Ltac step := unfold shift; simpl; rewrite ?Nat.add_1_r, ?Nat.add_0_r.

Lemma classical_ins_ok : forall l a b c d m, below a b m ->
  exists m', m' = m ++ zipp I a I c (length (takew cl l)) /\
  classical_ins ty quantum l (cur a b c d m) =
    Some (dropw cl l, cur (a + length (takew cl l)) b (c + length (takew cl l)) d m') /\
  below (a + length (takew cl l)) b m'.
Proof.
  induction l as [|t r IH]; intros a b c d m H.
  - exists m. simpl. unfold zipp. simpl. rewrite app_nil_r, !Nat.add_0_r. auto.
  - simpl. destruct (quantum t) eqn:E; simpl.
    + exists m. unfold zipp. simpl. rewrite app_nil_r, !Nat.add_0_r. auto.
    + rewrite (insert_in a b m _ H). step.
      destruct (IH (S a) b (S c) d (m ++ [((I, a), (I, c))]) (below_in _ _ _ _ H)) as (m' & E' & R & B).
      exists m'. rewrite zipp_S. rewrite <- app_assoc in E'. simpl in E'.
      split; [exact E'|]. rewrite !Nat.add_succ_r. split; [exact R|exact B].
Qed.

Lemma classical_outs_ok : forall l a b c d m, below a b m ->
  exists m', m' = m ++ zipp Outgoing b Outgoing d (length (takew cl l)) /\
  classical_outs ty quantum l (cur a b c d m) =
    Some (dropw cl l, cur a (b + length (takew cl l)) c (d + length (takew cl l)) m') /\
  below a (b + length (takew cl l)) m'.
Proof.
  induction l as [|t r IH]; intros a b c d m H.
  - exists m. simpl. unfold zipp. simpl. rewrite app_nil_r, !Nat.add_0_r. auto.
  - simpl. destruct (quantum t) eqn:E; simpl.
    + exists m. unfold zipp. simpl. rewrite app_nil_r, !Nat.add_0_r. auto.
    + rewrite (insert_out a b m _ H). step.
      destruct (IH a (S b) c (S d) (m ++ [((Outgoing, b), (Outgoing, d))]) (below_out _ _ _ _ H)) as (m' & E' & R & B).
      exists m'. rewrite zipp_S. rewrite <- app_assoc in E'. simpl in E'.
      split; [exact E'|]. rewrite !Nat.add_succ_r. split; [exact R|exact B].
Qed.

Variable dg : bool.

Lemma quantum_ins_ok : forall l a b c d m, below a b m ->
  let n := length (takew quantum l) in
  exists m', m' = m ++ zipp I a (if dg then Outgoing else I) (if dg then d else c) n /\
  quantum_ins ty quantum dg l (cur a b c d m) =
    Some (dropw quantum l, cur (a + n) b (if dg then c else c + n) (if dg then d + n else d) m') /\
  below (a + n) b m'.
Proof.
  induction l as [|t r IH]; intros a b c d m H; simpl.
  - exists m. unfold zipp. simpl. rewrite app_nil_r, !Nat.add_0_r. destruct dg; auto.
  - destruct (quantum t) eqn:E; simpl.
    + rewrite (insert_in a b m _ H). destruct dg; step.
      * destruct (IH (S a) b c (S d) _ (below_in _ _ _ (Outgoing, d) H)) as (m' & E' & R & B).
        exists m'. rewrite zipp_S. rewrite <- app_assoc in E'. simpl in E'.
        split; [exact E'|]. rewrite !Nat.add_succ_r. split; [exact R|exact B].
      * destruct (IH (S a) b (S c) d _ (below_in _ _ _ (I, c) H)) as (m' & E' & R & B).
        exists m'. rewrite zipp_S. rewrite <- app_assoc in E'. simpl in E'.
        split; [exact E'|]. rewrite !Nat.add_succ_r. split; [exact R|exact B].
    + exists m. unfold zipp. simpl. rewrite app_nil_r, !Nat.add_0_r. destruct dg; auto.
Qed.

Lemma quantum_outs_ok : forall l a b c d m, below a b m ->
  let n := length (takew quantum l) in
  exists m', m' = m ++ zipp Outgoing b (if dg then I else Outgoing) (if dg then c else d) n /\
  quantum_outs ty quantum dg l (cur a b c d m) =
    Some (dropw quantum l, cur a (b + n) (if dg then c + n else c) (if dg then d else d + n) m') /\
  below a (b + n) m'.
Proof.
  induction l as [|t r IH]; intros a b c d m H; simpl.
  - exists m. unfold zipp. simpl. rewrite app_nil_r, !Nat.add_0_r. destruct dg; auto.
  - destruct (quantum t) eqn:E; simpl.
    + rewrite (insert_out a b m _ H). destruct dg; step.
      * destruct (IH a (S b) (S c) d _ (below_out _ _ _ (I, c) H)) as (m' & E' & R & B).
        exists m'. rewrite zipp_S. rewrite <- app_assoc in E'. simpl in E'.
        split; [exact E'|]. rewrite !Nat.add_succ_r. split; [exact R|exact B].
      * destruct (IH a (S b) c (S d) _ (below_out _ _ _ (Outgoing, d) H)) as (m' & E' & R & B).
        exists m'. rewrite zipp_S. rewrite <- app_assoc in E'. simpl in E'.
        split; [exact E'|]. rewrite !Nat.add_succ_r. split; [exact R|exact B].
    + exists m. unfold zipp. simpl. rewrite app_nil_r, !Nat.add_0_r. destruct dg; auto.
Qed.

(** The entries of one round and of all rounds. *)
Definition c1 (l : list ty) := takew cl l.
Definition q1 (l : list ty) := takew quantum (dropw cl l).
Definition r1 (l : list ty) := dropw quantum (dropw cl l).

Definition round (X Y : list ty) (a b c d : nat) : list (port * port) :=
  zipp I a I c (length (c1 X)) ++ zipp Outgoing b Outgoing d (length (c1 Y)) ++
  zipp I (a + length (c1 X)) (if dg then Outgoing else I)
    (if dg then d + length (c1 Y) else c + length (c1 X)) (length (q1 X)) ++
  zipp Outgoing (b + length (c1 Y)) (if dg then I else Outgoing)
    (if dg then c + length (c1 X) else d + length (c1 Y)) (length (q1 Y)).

Fixpoint rounds (fuel : nat) (X Y : list ty) (a b c d : nat) : list (port * port) :=
  match fuel with
  | 0 => []
  | S fuel =>
      round X Y a b c d ++
      match r1 X, r1 Y with
      | [], [] => []
      | _, _ => rounds fuel (r1 X) (r1 Y) (a + length (c1 X) + length (q1 X))
          (b + length (c1 Y) + length (q1 Y))
          (c + length (c1 X) + (if dg then length (q1 Y) else length (q1 X)))
          (d + length (c1 Y) + (if dg then length (q1 X) else length (q1 Y)))
      end
  end.

Lemma parts : forall l, l = c1 l ++ q1 l ++ r1 l.
Proof. intros. unfold c1, q1, r1. rewrite take_drop. symmetry. apply take_drop. Qed.

Lemma parts_length : forall l, length l = length (c1 l) + length (q1 l) + length (r1 l).
Proof. intros. rewrite (parts l) at 1. rewrite !app_length. lia. Qed.

Lemma progress : forall l, length (r1 l) <= length l /\ (l <> [] -> length (r1 l) < length l).
Proof.
  intros l. split; [rewrite (parts_length l); lia|]. intros N.
  rewrite (parts_length l). destruct l as [|t l]; [congruence|].
  unfold c1, q1, r1. simpl. destruct (quantum t) eqn:E; simpl; rewrite ?E; simpl; lia.
Qed.

Lemma loop_ok : forall fuel X Y a b c d m,
  length X + length Y < fuel -> below a b m ->
  exists w, wire_loop ty quantum dg fuel X Y (cur a b c d m) = Some w /\
    corresp w = m ++ rounds fuel X Y a b c d.
Proof.
  induction fuel as [|fuel IH]; intros X Y a b c d m L H; [lia|].
  simpl wire_loop. simpl rounds.
  destruct (classical_ins_ok X a b c d m H) as (m1 & E1 & R1 & B1). rewrite R1.
  destruct (classical_outs_ok Y (a + length (takew cl X)) b (c + length (takew cl X)) d m1 B1)
    as (m2 & E2 & R2 & B2). rewrite R2.
  destruct (quantum_ins_ok (dropw cl X) (a + length (takew cl X)) (b + length (takew cl Y))
    (c + length (takew cl X)) (d + length (takew cl Y)) m2 B2) as (m3 & E3 & R3 & B3). rewrite R3.
  destruct (quantum_outs_ok (dropw cl Y) (a + length (takew cl X) + length (takew quantum (dropw cl X)))
    (b + length (takew cl Y))
    (if dg then c + length (takew cl X) else c + length (takew cl X) + length (takew quantum (dropw cl X)))
    (if dg then d + length (takew cl Y) + length (takew quantum (dropw cl X)) else d + length (takew cl Y))
    m3 B3) as (m4 & E4 & R4 & B4). rewrite R4.
  fold (c1 X) (c1 Y) (q1 X) (q1 Y) in *. fold (r1 X) (r1 Y).
  assert (E : m4 = m ++ round X Y a b c d).
  { subst. unfold round. fold (c1 X) (c1 Y) (q1 X) (q1 Y). destruct dg; rewrite !app_assoc; auto. }
  assert (G : length (r1 X) + length (r1 Y) < fuel ->
    exists w, wire_loop ty quantum dg fuel (r1 X) (r1 Y)
      (cur (a + length (c1 X) + length (q1 X)) (b + length (c1 Y) + length (q1 Y))
        (if dg then (if dg then c + length (c1 X) else c + length (c1 X) + length (q1 X)) + length (q1 Y)
          else if dg then c + length (c1 X) else c + length (c1 X) + length (q1 X))
        (if dg then if dg then d + length (c1 Y) + length (q1 X) else d + length (c1 Y)
          else (if dg then d + length (c1 Y) + length (q1 X) else d + length (c1 Y)) + length (q1 Y)) m4)
      = Some w /\ corresp w = m ++ round X Y a b c d ++
        rounds fuel (r1 X) (r1 Y) (a + length (c1 X) + length (q1 X))
          (b + length (c1 Y) + length (q1 Y))
          (c + length (c1 X) + (if dg then length (q1 Y) else length (q1 X)))
          (d + length (c1 Y) + (if dg then length (q1 X) else length (q1 Y)))).
  { intros LL. subst m4.
    destruct (IH (r1 X) (r1 Y) (a + length (c1 X) + length (q1 X)) (b + length (c1 Y) + length (q1 Y))
          (c + length (c1 X) + (if dg then length (q1 Y) else length (q1 X)))
          (d + length (c1 Y) + (if dg then length (q1 X) else length (q1 Y))) _ LL B4) as (w & W1 & W2).
    exists w. rewrite E in W2, W1. rewrite <- app_assoc in W2. split; auto.
    rewrite E. destruct dg; auto. }
  assert (PX := progress X). assert (PY := progress Y).
  assert (NX : r1 X <> [] -> X <> []). { intros N ->. apply N. reflexivity. }
  assert (NY : r1 Y <> [] -> Y <> []). { intros N ->. apply N. reflexivity. }
  destruct (r1 X) as [|x rx] eqn:EX; [destruct (r1 Y) as [|y ry] eqn:EY|].
  - eexists. split; [reflexivity|]. simpl. rewrite app_nil_r. exact E.
  - apply G. destruct PY as [_ PY]. specialize (PY (NY ltac:(discriminate))). simpl in *. lia.
  - apply G. destruct PX as [_ PX]. specialize (PX (NX ltac:(discriminate))). simpl in *. lia.
Qed.

(** [wire_inout] always succeeds. *)
Lemma wire_ok : forall X Y a b n,
  wire_inout quantum dg X Y a b n =
    Some (rounds (S (length X + length Y)) X Y a b (a + n) (b + n)).
Proof.
  intros. unfold wire_inout.
  destruct (loop_ok (S (length X + length Y)) X Y a b (a + n) (b + n) [] (Nat.lt_succ_diag_r _))
    as (w & E & C).
  - intros p [].
  - unfold cur in E. rewrite E, C. reflexivity.
Qed.

Lemma wire_inv : forall X Y a b n m, wire_inout quantum dg X Y a b n = Some m ->
  m = rounds (S (length X + length Y)) X Y a b (a + n) (b + n).
Proof. intros X Y a b n m H. rewrite wire_ok in H. congruence. Qed.

Lemma rounds_S : forall fuel X Y a b c d, length X + length Y < S fuel ->
  rounds (S fuel) X Y a b c d = round X Y a b c d ++
    rounds fuel (r1 X) (r1 Y) (a + length (c1 X) + length (q1 X))
          (b + length (c1 Y) + length (q1 Y))
          (c + length (c1 X) + (if dg then length (q1 Y) else length (q1 X)))
          (d + length (c1 Y) + (if dg then length (q1 X) else length (q1 Y))).
Proof.
  intros. simpl. f_equal. destruct (r1 X) eqn:EX; [destruct (r1 Y) eqn:EY|]; auto.
  destruct fuel; auto.
Qed.
End Wiring.
