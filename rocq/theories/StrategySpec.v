(** Vocabulary for rewriting strategies: a circuit is a list of numbered operations, a rewrite
    names the operations it replaces, further operations that must stay unchanged for it to be
    valid, and the replacement operations. How operations are wired is left out: a strategy
    never looks at it. *)
From Coq Require Import ZArith List Permutation.
From Verif Require Import CostSpec.
Import ListNotations.
Open Scope Z_scope.

Section Spec.
Variable op : Type.
Definition circ : Type := list (nat * op).
Record rewrite : Type := { rw_nodes : list nat; rw_extra : list nat; rw_repl : list op }.

Definition ids (c : circ) : list nat := map fst c.
Definition ops (c : circ) : list op := map snd c.

(** The rewrite fits the circuit. *)
Definition fits (c : circ) (rw : rewrite) : Prop :=
  NoDup (rw_nodes rw) /\ incl (rw_nodes rw) (ids c).

(** One application: exactly the matched operations disappear, the replacement appears. *)
Definition step (c : circ) (rw : rewrite) (c' : circ) : Prop :=
  exists matched kept new,
    Permutation c (matched ++ kept) /\ Permutation (ids matched) (rw_nodes rw) /\
    Permutation c' (kept ++ new) /\ ops new = rw_repl rw /\ NoDup (ids c').
Inductive steps : circ -> list rewrite -> circ -> Prop :=
| steps_nil : forall c, steps c [] c
| steps_cons : forall c rw c1 rws c2, step c rw c1 -> steps c1 rws c2 -> steps c (rw :: rws) c2.

(** Node numbers handed out for inserted operations: as many as asked for, distinct, unused. *)
Definition allocator (fresh : list nat -> nat -> list nat) : Prop :=
  forall used n, length (fresh used n) = n /\ NoDup (fresh used n) /\
    forall x, In x (fresh used n) -> ~ In x used.

Definition overlap (a b : list nat) : Prop := exists n, In n a /\ In n b.
(** No member of the list shares an element with an earlier one. *)
Fixpoint pairwise_disjoint (l : list (list nat)) : Prop :=
  match l with
  | [] => True
  | a :: r => (forall b, In b r -> ~ overlap a b) /\ pairwise_disjoint r
  end.

(** Total of an additive measure over a circuit. *)
Definition weigh (w : op -> Z) (l : list op) : Z := zsum (map w l).

End Spec.
Arguments rw_nodes {op}. Arguments rw_extra {op}. Arguments rw_repl {op}.
Arguments ids {op}. Arguments ops {op}. Arguments fits {op}. Arguments step {op}.
Arguments steps {op}. Arguments weigh {op}. Arguments steps_nil {op}. Arguments steps_cons {op}.
