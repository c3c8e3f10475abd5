(** Vocabulary for costs: vectors of integers, compared by the first differing component. *)
From Coq Require Import ZArith List Permutation.
Import ListNotations.
Open Scope Z_scope.

(** [lex a b]: a and b have the same length and at the first position where they differ, a is
    smaller. *)
Definition lex (a b : list Z) : Prop :=
  length a = length b /\
  exists k, (k < length a)%nat /\ nth k a 0 < nth k b 0 /\
    forall i, (i < k)%nat -> nth i a 0 = nth i b 0.

(** All components lie in [lo, hi). *)
Definition within (lo hi : Z) (a : list Z) : Prop := Forall (fun x => lo <= x < hi) a.

(** [total N vs t]: t is the componentwise sum of the vectors, all of length N. *)
Definition component (i : nat) (v : list Z) : Z := nth i v 0.
Fixpoint zsum (l : list Z) : Z := match l with [] => 0 | x :: r => x + zsum r end.
Definition is_total (N : nat) (vs : list (list Z)) (t : list Z) : Prop :=
  length t = N /\ forall i, (i < N)%nat -> component i t = zsum (map (component i) vs).
