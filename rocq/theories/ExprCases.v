(** Circuits for the expressions of [ExprModel], and a check of what is supposed of them. *)
From Coq Require Import List Bool Arith Lia.
From Verif Require Import ScopeModel ScopeSpec ScopeProofs ScopeCases ScopeProps ExprModel ExprSpec.
Import ListNotations.

(** A priority queue: the first of the nodes of largest position. *)
Fixpoint largest (st : state) (best : nat) (q : list nat) : nat :=
  match q with
  | [] => best
  | m :: q => if Nat.ltb (place st best) (place st m) then largest st m q else largest st best q
  end.
Definition pick (st : state) (v q : list nat) : nat := match q with [] => 0 | m :: q => largest st m q end.
Lemma largest_ok : forall st q best, (largest st best q = best \/ In (largest st best q) q) /\
  place st best <= place st (largest st best q) /\ forall m, In m q -> place st m <= place st (largest st best q).
Proof.
  intros st. induction q as [|m q IH]; simpl; intros best; [split; [auto|split; [lia|intros m []]]|].
  destruct (Nat.ltb (place st best) (place st m)) eqn:E.
  - apply Nat.ltb_lt in E. destruct (IH m) as (A & B & C). split; [right; destruct A; auto|]. split; [lia|].
    intros x [<-|J]; [exact B|auto].
  - apply Nat.ltb_ge in E. destruct (IH best) as (A & B & C). split; [destruct A; auto|]. split; [exact B|].
    intros x [<-|J]; [lia|auto].
Qed.
Lemma pick_largest : forall st, gives_largest st (pick st).
Proof.
  intros st v q H. destruct q as [|m q]; [congruence|]. simpl. destruct (largest_ok st q m) as (A & B & C).
  split; [destruct A; auto|]. intros x [<-|J]; auto.
Qed.

Section Case.
Variables (sigs : list (list nat * list nat)) (es : list edge) (scope : list nat) (incoming : list (nat * nat)).
Notation g := (make sigs es []).
(** The scope computes its positions. *)
Definition places : state := match compute_circuit_units g scope [default_flow g] incoming scope with Some st => st | None => initial end.
Definition case_ok : bool := check sigs es [] && topo_check es scope scope && entry_check sigs es [] scope incoming && forallb (fun n => Nat.ltb n (length sigs)) scope.

Lemma case_setting : NoDup scope -> case_ok = true -> setting g scope places (pick places).
Proof.
  intros N H. unfold case_ok in H. apply andb_true_iff in H as [H L]. apply andb_true_iff in H as [H E]. apply andb_true_iff in H as [C T].
  apply check_ok in C. apply (topo_check_ok sigs es [] scope scope N) in T. apply entry_check_ok in E.
  destruct (C43 g scope (default_keeps g) incoming scope C (default_keeps_iff g) T E) as (st & Q & _ & I).
  constructor.
  - exact C.
  - unfold places. rewrite Q. exact I.
  - intros n J. rewrite forallb_forall in L. specialize (L n J). apply Nat.ltb_lt in L. simpl.
    destruct (nth_error sigs n) as [s|] eqn:X; [eauto|]. apply nth_error_None in X. lia.
  - apply pick_largest.
  - intros a p b i J. simpl in *. unfold find_targets in J. apply in_map_iff in J as (e & X & J). apply filter_In in J as (J & F).
    apply pair_eqb_iff in F. apply in_app_iff. left. apply in_map_iff. exists e. rewrite X. split; [reflexivity|].
    apply filter_In. split; [exact J|]. rewrite F. apply Nat.eqb_refl.
Qed.
Lemma case_values_only : values_only g.
Proof.
  intros n m J. cbn [neighbours make] in J. rewrite app_nil_r in J. apply in_map_iff in J. destruct J as ([[a b] [c d]] & <- & J). apply filter_In in J. destruct J as [J F]. simpl in F. apply Nat.eqb_eq in F. subst a.
  exists b, d. simpl. unfold find_targets. apply in_map_iff. exists ((n, b), (c, d)). split; [reflexivity|]. apply filter_In. split; [exact J|]. apply pair_eqb_iff. reflexivity.
Qed.
End Case.

(** x = f a; y = k x b; x and y are results: 0 is the input, 1 is f, 2 is k, 3 the output. *)
Definition sigs1 : list (list nat * list nat) := [ ([], [1; 1]); ([1], [1]); ([1; 1], [1]); ([1; 1], []) ].
Definition edges1 : list edge := [ ((0, 0), (1, 0)); ((1, 0), (2, 0)); ((0, 1), (2, 1)); ((2, 0), (3, 0)); ((1, 0), (3, 1)) ].
Definition entries1 : list (nat * nat) := [(1, 0); (2, 1)].

(** The same with an operation 2 on a qubit and x between: y = k x z. *)
Definition sigs2 : list (list nat * list nat) := [ ([], [1; 0]); ([1], [1]); ([0; 1], [0; 1]); ([1; 1], [1]); ([1; 0], []) ].
Definition edges2 : list edge := [ ((0, 0), (1, 0)); ((1, 0), (2, 1)); ((0, 1), (2, 0)); ((1, 0), (3, 0)); ((2, 1), (3, 1)); ((3, 0), (4, 0)); ((2, 0), (4, 1)) ].
Definition entries2 : list (nat * nat) := [(1, 0); (2, 0)].

(** A node with two results, both used; a node whose result is not used. *)
Definition sigs3 : list (list nat * list nat) := [ ([], [1]); ([1], [1; 1]); ([1], [1]); ([1; 1], []) ].
Definition edges3 : list edge := [ ((0, 0), (1, 0)); ((0, 0), (2, 0)); ((1, 0), (3, 0)); ((1, 1), (3, 1)) ].
Definition entries3 : list (nat * nat) := [(1, 0); (2, 0)].

(** A larger one: 1: c = f a; 2: d = f b; 3: e = k c d; 4: measurement giving m; 5: r = k e m; 6 uses r twice. *)
Definition sigs4 : list (list nat * list nat) :=
  [ ([], [1; 1; 0]); ([1], [1]); ([1], [1]); ([1; 1], [1]); ([0], [0; 1]); ([1; 1], [1]); ([1; 1], [1; 1]); ([1; 1; 0], []) ].
Definition edges4 : list edge :=
  [ ((0, 0), (1, 0)); ((0, 1), (2, 0)); ((1, 0), (3, 0)); ((2, 0), (3, 1)); ((0, 2), (4, 0)); ((3, 0), (5, 0)); ((4, 1), (5, 1));
    ((5, 0), (6, 0)); ((5, 0), (6, 1)); ((6, 0), (7, 0)); ((6, 1), (7, 1)); ((4, 0), (7, 2)) ].
Definition entries4 : list (nat * nat) := [(1, 0); (2, 0); (4, 0)].
