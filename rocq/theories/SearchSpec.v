(** Reachability in a search space. *)
From Coq Require Import List.
Import ListNotations.

Section Reach.
Variables (S C : Type) (next : C -> S -> list S * C).

(** States reachable from [s] by steps of [next], in whatever contexts. *)
Inductive reach (s : S) : S -> Prop :=
| reach_refl : reach s s
| reach_step : forall s' s'' c, reach s s' -> In s'' (fst (next c s')) -> reach s s''.
End Reach.
Arguments reach {S C}.
