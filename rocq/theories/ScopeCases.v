(** Graphs given by lists, and a check that they are valid. *)
From Coq Require Import List Bool Arith Lia.
From Verif Require Import ScopeModel ScopeSpec ScopeProofs.
Import ListNotations.

(** Type 0 is a qubit, the others are copyable. Node [n] has the signature number [n]. *)
Definition edge : Type := (nat * nat) * (nat * nat).
Definition pair_eqb (a b : nat * nat) : bool := Nat.eqb (fst a) (fst b) && Nat.eqb (snd a) (snd b).
Definition find_source (es : list edge) (m i : nat) : option (nat * nat) := match find (fun e => pair_eqb (snd e) (m, i)) es with Some e => Some (fst e) | None => None end.
Definition find_targets (es : list edge) (n p : nat) : list (nat * nat) := map snd (filter (fun e => pair_eqb (fst e) (n, p)) es).
Definition make (sigs : list (list nat * list nat)) (es : list edge) (other : list (nat * nat)) : graph :=
  {| copyable := fun t => negb (Nat.eqb t 0); signature := fun n => nth_error sigs n; source := find_source es; targets := find_targets es;
     neighbours := fun n => map (fun e => fst (snd e)) (filter (fun e => Nat.eqb (fst (fst e)) n) es) ++ map snd (filter (fun e => Nat.eqb (fst e) n) other) |}.

Lemma pair_eqb_iff : forall a b, pair_eqb a b = true <-> a = b.
Proof. intros [a b] [c d]. unfold pair_eqb. simpl. rewrite andb_true_iff, !Nat.eqb_eq. split; [intros [-> ->]; reflexivity|intros X; injection X as -> ->; auto]. Qed.

Section Check.
Variables (sigs : list (list nat * list nat)) (es : list edge) (other : list (nat * nat)).
Notation g := (make sigs es other).
Fixpoint no_dup (l : list (nat * nat)) : bool := match l with [] => true | x :: l => negb (existsb (pair_eqb x) l) && no_dup l end.
Lemma no_dup_ok : forall l, no_dup l = true -> NoDup l.
Proof.
  induction l as [|x l IH]; simpl; intros H; [constructor|]. apply andb_true_iff in H. destruct H as [A B]. constructor; [|auto]. intros I. apply negb_true_iff in A.
  assert (existsb (pair_eqb x) l = true) by (apply existsb_exists; exists x; split; [exact I|apply pair_eqb_iff; reflexivity]). congruence.
Qed.
Lemma links_ok : NoDup (map snd es) -> forall n p m i, In (m, i) (find_targets es n p) <-> find_source es m i = Some (n, p).
Proof.
  intros N n p m i. unfold find_targets, find_source. induction es as [|[a b] l IH]; simpl; [split; [intros []|discriminate]|]. simpl in N. inversion N as [|? ? N1 N2]; subst.
  specialize (IH N2). destruct (pair_eqb b (m, i)) eqn:E.
  - apply pair_eqb_iff in E. subst b. simpl. split.
    + intros X. destruct (pair_eqb a (n, p)) eqn:F; [apply pair_eqb_iff in F; congruence|]. exfalso. apply N1. apply in_map_iff in X. destruct X as (e & X & Y). apply filter_In in Y. apply in_map_iff. exists e. tauto.
    + intros X. injection X as ->. assert (pair_eqb (n, p) (n, p) = true) as -> by (apply pair_eqb_iff; reflexivity). left. reflexivity.
  - rewrite <- IH. destruct (pair_eqb a (n, p)); simpl; [|tauto]. split; [intros [X|X]; [subst b; assert (pair_eqb (m, i) (m, i) = true) by (apply pair_eqb_iff; reflexivity); congruence|exact X]|auto].
Qed.
Definition type_of (n : nat) (p : port) : option nat := port_type g n p.
Definition opt_eqb (a b : option nat) : bool := match a, b with Some x, Some y => Nat.eqb x y | _, _ => false end.
Definition all_ports (f : nat -> direction -> nat -> bool) : bool :=
  forallb (fun n => forallb (f n Incoming) (seq 0 (length (types g n Incoming))) && forallb (f n Outgoing) (seq 0 (length (types g n Outgoing)))) (seq 0 (length sigs)).
Lemma all_ports_ok : forall f, all_ports f = true -> forall n p t, has_type g n p t -> f n (fst p) (snd p) = true.
Proof.
  intros f H n [d i] t T. unfold all_ports in H. rewrite forallb_forall in H.
  assert (L : i < length (types g n d)) by (apply types_length; eauto). destruct T as (a & b & S & _). specialize (H n). simpl in S. rewrite in_seq in H.
  assert (n < length sigs) by (apply nth_error_Some; congruence). specialize (H ltac:(lia)). apply andb_true_iff in H. destruct H as [A B]. rewrite forallb_forall in A, B. simpl. destruct d; [apply A|apply B]; apply in_seq; lia.
Qed.
Definition check : bool :=
  no_dup (map snd es) &&
  all_ports (fun n d i => match d with
    | Incoming => match source g n i with Some (m, p) => opt_eqb (type_of m (Outgoing, p)) (type_of n (Incoming, i)) | None => false end
    | Outgoing => if opt_eqb (type_of n (Outgoing, i)) (Some 0) then Nat.eqb (length (targets g n i)) 1 else true end) &&
  forallb (fun e => match type_of (fst (snd e)) (Incoming, snd (snd e)) with Some _ => true | None => false end) es.
Lemma check_ok : check = true -> valid g.
Proof.
  intros H. unfold check in H. apply andb_true_iff in H. destruct H as [H C]. apply andb_true_iff in H. destruct H as [A B]. apply no_dup_ok in A. assert (L := links_ok A). assert (B' := all_ports_ok _ B). constructor.
  - exact L.
  - intros m i t T. specialize (B' m (Incoming, i) t T). simpl in B'. change (find_source es m i) with (source g m i) in *. destruct (source g m i) as [[n p]|] eqn:S; [|discriminate]. exists n, p. split; [reflexivity|].
    apply has_type_iff in T. unfold type_of in B'. rewrite T in B'. unfold opt_eqb in B'. destruct (port_type g n (Outgoing, p)) as [t'|] eqn:T'; [|discriminate]. apply Nat.eqb_eq in B'. subst t'. apply has_type_iff. exact T'.
  - intros m i n p S. apply (L n p m i) in S. unfold find_targets in S. apply in_map_iff in S. destruct S as (e & E & I). apply filter_In in I. destruct I as [I _]. rewrite forallb_forall in C. specialize (C e I). rewrite E in C. simpl in C. destruct (type_of m (Incoming, i)) as [t|] eqn:T; [|discriminate]. exists t. apply has_type_iff. exact T.
  - intros n p (t & T & Ct). specialize (B' n (Outgoing, p) t T). simpl in Ct. apply negb_false_iff, Nat.eqb_eq in Ct. subst t. simpl in B'. apply has_type_iff in T. unfold type_of in B'. rewrite T in B'. simpl in B'. apply Nat.eqb_eq in B'. exact B'.
Qed.
Definition topo_check (nodes order : list nat) : bool :=
  forallb (fun n => existsb (Nat.eqb n) order) nodes && forallb (fun n => existsb (Nat.eqb n) nodes) order &&
  forallb (fun e => if existsb (Nat.eqb (fst (fst e))) nodes && existsb (Nat.eqb (fst (snd e))) nodes
    then Nat.ltb (rank_in (fst (fst e)) order) (rank_in (fst (snd e)) order) else true) es.
Lemma topo_check_ok : forall nodes order, NoDup order -> topo_check nodes order = true -> topological g nodes order.
Proof.
  intros nodes order N H. unfold topo_check in H. apply andb_true_iff in H. destruct H as [H C]. apply andb_true_iff in H. destruct H as [A B]. rewrite forallb_forall in A, B, C.
  assert (Q : forall n l, existsb (Nat.eqb n) l = true <-> In n l) by (intros n l; rewrite existsb_exists; split; [intros (x & I & E); apply Nat.eqb_eq in E; subst; exact I|intros I; exists n; split; [exact I|apply Nat.eqb_refl]]).
  split; [exact N|]. split; [intros n; split; intros I; apply Q; auto|]. intros l1 n l2 E p m i T Hm.
  assert (I : In n order) by (rewrite E; apply in_or_app; right; left; reflexivity). assert (Hn : In n nodes) by (apply Q, B, I).
  simpl in T. unfold find_targets in T. apply in_map_iff in T. destruct T as ([[a b] [c d]] & X & Y). simpl in X. injection X as -> ->. apply filter_In in Y. destruct Y as [Y Z]. simpl in Z. apply pair_eqb_iff in Z. injection Z as -> ->.
  specialize (C _ Y). simpl in C. rewrite (proj2 (Q n nodes) Hn), (proj2 (Q m nodes) Hm) in C. simpl in C. apply Nat.ltb_lt in C. rewrite E in N, C. rewrite rank_split in C by (apply NoDup_remove_2 in N; intros J; apply N, in_or_app; auto).
  assert (J : In m order) by (apply Q, A, Hm). rewrite E in J. apply in_app_or in J. destruct J as [J|[->|J]]; [|rewrite rank_split in C by (apply NoDup_remove_2 in N; intros J; apply N, in_or_app; auto); lia|exact J].
  exfalso. clear - J C. induction l1 as [|x l1 IH]; [destruct J|]. simpl in C. destruct (Nat.eqb x m) eqn:F; [lia|]. destruct J as [->|J]; [rewrite Nat.eqb_refl in F; discriminate|]. apply IH; [simpl in *; lia|exact J].
Qed.
Definition entry_check (nodes : list nat) (incoming : list (nat * nat)) : bool :=
  forallb (fun e => existsb (Nat.eqb (fst e)) nodes && match type_of (fst e) (Incoming, snd e) with Some _ => true | None => false end &&
    match find_source es (fst e) (snd e) with Some (m, _) => negb (existsb (Nat.eqb m) nodes) | None => true end) incoming.
Lemma entry_check_ok : forall nodes incoming, entry_check nodes incoming = true -> entries g nodes incoming.
Proof.
  intros nodes incoming H n i I. unfold entry_check in H. rewrite forallb_forall in H. specialize (H _ I). simpl in H. apply andb_true_iff in H. destruct H as [H C]. apply andb_true_iff in H. destruct H as [A B].
  assert (Q : forall n l, existsb (Nat.eqb n) l = true <-> In n l) by (intros n' l; rewrite existsb_exists; split; [intros (x & J & E); apply Nat.eqb_eq in E; subst; exact J|intros J; exists n'; split; [exact J|apply Nat.eqb_refl]]).
  split; [apply Q; exact A|]. split; [destruct (type_of n (Incoming, i)) as [t|] eqn:T; [exists t; apply has_type_iff; exact T|discriminate]|].
  intros m p S. simpl in S. rewrite S in C. apply negb_true_iff in C. intros J. apply Q in J. congruence.
Qed.
End Check.

(** A circuit: 0 is the input, 7 the output; H on the first qubit, CX, a measurement of the second whose result
    (type 1) goes through a gate to a rotation of the first, and an operation that swaps its results' kinds. *)
Definition sigs : list (list nat * list nat) :=
  [ ([], [0; 0]);          (* 0: input *)
    ([0], [0]);            (* 1: H *)
    ([0; 0], [0; 0]);      (* 2: CX *)
    ([0], [0; 1]);         (* 3: measurement *)
    ([1], [2]);            (* 4: bool to angle *)
    ([0; 2], [0]);         (* 5: rotation *)
    ([0; 0], [1; 0]);      (* 6: something that is not straight *)
    ([1; 0], []) ].        (* 7: output *)
Definition edges : list edge :=
  [ ((0, 0), (1, 0)); ((1, 0), (2, 0)); ((0, 1), (2, 1)); ((2, 0), (5, 0)); ((2, 1), (3, 0)); ((3, 1), (4, 0)); ((4, 0), (5, 1));
    ((5, 0), (6, 0)); ((3, 0), (6, 1)); ((6, 0), (7, 0)); ((6, 1), (7, 1)) ].
Definition circuit : graph := make sigs edges [].
Definition inner : list nat := [1; 2; 3; 4; 5; 6].
