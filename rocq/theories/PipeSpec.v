(** Vocabulary for the pipeline: orders of a region, what they put off, passes that keep a
    function. *)
From Coq Require Import String List Arith Bool ZArith.
From Verif Require Import PipeModel.
Import ListNotations.

(** ** Orders *)

(** Every node of the region once, each after its predecessors. *)
Definition respects (g : region) (l : list nat) : Prop :=
  forall pre n post, l = pre ++ n :: post ->
  forall p, In p (r_deps g n) -> In p (r_nodes g) -> In p pre.
Definition linear (g : region) (l : list nat) : Prop :=
  NoDup l /\ (forall n, In n l <-> In n (r_nodes g)) /\ respects g l.

(** Nodes whose predecessors are all in a set. *)
Definition free_in (g : region) (placed : list nat) (n : nat) : Prop :=
  forall p, In p (r_deps g n) -> In p (r_nodes g) -> In p placed.

(** An order that always takes a node of the least rank among those that can be taken. *)
Definition greedy (g : region) (l : list nat) : Prop :=
  linear g l /\
  forall pre n post, l = pre ++ n :: post ->
  forall m, In m post -> free_in g pre m -> (rank (r_op g n) <= rank (r_op g m))%Z.

(** There is an order. *)
Definition acyclic (g : region) : Prop := exists l, linear g l.

(** One node depends on another, through nodes of the region. *)
Inductive depends (g : region) : nat -> nat -> Prop :=
| dep_one : forall n p, In p (r_deps g n) -> In p (r_nodes g) -> depends g n p
| dep_more : forall n p q, In p (r_deps g n) -> In p (r_nodes g) -> depends g p q -> depends g n q.

(** Kinds of operations, in the words of the comments (lib.rs:159-167). *)
Definition quantum (o : opk) : Prop :=
  o = TkOther \/ o = QsOther \/ o = TkQFree \/ o = QsQFree.
Definition alloc (o : opk) : Prop := o = TkQAlloc \/ o = TkTryQAlloc \/ o = QsTryQAlloc.
Definition free (o : opk) : Prop := o = TkQFree \/ o = QsQFree.
Definition classical (o : opk) : Prop := o = FutOther \/ o = Other.

(** Qubits in use after some operations. *)
Fixpoint live (g : region) (l : list nat) : Z :=
  match l with
  | [] => 0
  | n :: l =>
      (match r_op g n with
       | TkQAlloc | TkTryQAlloc | QsTryQAlloc => 1
       | TkQFree | QsQFree => -1
       | _ => 0
       end + live g l)%Z
  end.
(** So many qubits are in use at some time, or at no time more. *)
Definition uses (g : region) (l : list nat) (k : Z) : Prop :=
  exists pre post, l = pre ++ post /\ (k <= live g pre)%Z.
Definition at_most (g : region) (l : list nat) (k : Z) : Prop :=
  forall pre post, l = pre ++ post -> (live g pre <= k)%Z.

(** ** Entry points *)

(** The entry point that a program has: its function, or for a module its only main. *)
Inductive starts (h : hugr) : nat -> Prop :=
| starts_node : forall n, h_entry h = ENode n -> starts h n
| starts_main : forall n before i after,
    h_entry h = EModule ->
    h_children h = before ++ (n, FuncDefn "main" i) :: after ->
    (forall m c, In (m, c) before -> forall j, c <> FuncDefn "main" j) ->
    (forall m c, In (m, c) after -> forall j, c <> FuncDefn "main" j) ->
    starts h n.

(** A pass that succeeds and keeps the function of a node. *)
Definition keeps (n : nat) (f : string) (i : nat) (p : pass) : Prop :=
  forall h, lookup n h = Some (FuncDefn f i) ->
  exists h', p h = (h', true) /\ lookup n h' = Some (FuncDefn f i).

(** ** A region of n qubits, each allocated, turned by one constant angle, and freed *)
Definition angles (n : nat) : region :=
  {| r_nodes := seq 0 (3 * n + 1);
     r_op := fun x => match x with
                      | 0 => Other
                      | S y => match y mod 3 with 0 => TkQAlloc | 1 => TkOther | _ => TkQFree end
                      end;
     r_deps := fun x => match x with
                        | 0 => []
                        | S y => match y mod 3 with 0 => [] | 1 => [y; 0] | _ => [y] end
                        end |}.
