(** Runs of nodes on a resource path. *)
From Coq Require Import List.
From Verif Require Import ScopeModel ScopeSpec IntervalModel.
Import ListNotations.

Section Spec.
Variables (g : graph) (nodes : list nat) (st : state).

(** The port [p] of [n] carries the resource [r]. *)
Definition carries (r n : nat) (p : port) : Prop := In n nodes /\ linear g n p /\ units st n p = Some (Resource r).
Definition on_path (r n : nat) : Prop := exists p, carries r n p.
(** [b] comes directly after [a] on the path of [r]. *)
Definition next (r a b : nat) : Prop := exists p i, carries r a (Outgoing, p) /\ In (b, i) (targets g a p) /\ In b nodes.
(** Contiguous nodes on the path. *)
Fixpoint run (r : nat) (l : list nat) : Prop :=
  match l with
  | [] => False
  | a :: rest => on_path r a /\ match rest with [] => True | b :: _ => next r a b /\ run r rest end
  end.
(** An interval that stands for the run [l] of [r]. *)
Definition covers (i : interval) (r : nat) (l : list nat) : Prop :=
  run r l /\ hd_error l = Some (start_node i) /\ (exists l', l = l' ++ [end_node i]) /\
  match i with
  | Singleton (n, p) => l = [n] /\ carries r n p
  | Span (a, p) (b, q) => 2 <= length l /\ carries r a (Outgoing, p) /\ carries r b (Incoming, q)
  end.
(** What extension by a node should do. *)
Inductive extends (r : nat) (l : list nat) (n : nat) : list nat -> option direction -> Prop :=
  | Inside : In n l -> extends r l n l None
  | Before : forall a l', l = a :: l' -> next r n a -> extends r l n (n :: l) (Some Incoming)
  | After : forall a l', l = l' ++ [a] -> next r a n -> extends r l n (l ++ [n]) (Some Outgoing).
End Spec.
