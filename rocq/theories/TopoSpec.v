(** What a topological walk of a graph is. *)
From Coq Require Import List.
Import ListNotations.

(** [l] visits nodes at most once, each after all its predecessors. *)
Definition visits_in_order (ids : list nat) (preds : nat -> list nat) (l : list nat) : Prop :=
  NoDup l /\ incl l ids /\ forall l1 n l2, l = l1 ++ n :: l2 -> incl (preds n) l1.
(** Nodes that are not on a cycle, nor after one. *)
Inductive grounded (ids : list nat) (preds : nat -> list nat) : nat -> Prop :=
  | Grounded : forall n, In n ids -> (forall p, In p (preds n) -> grounded ids preds p) -> grounded ids preds n.
(** A walk that visits as much as it can. *)
Definition walk_of (ids : list nat) (preds : nat -> list nat) (l : list nat) : Prop :=
  visits_in_order ids preds l /\ forall n, grounded ids preds n -> In n l.
