(** Vocabulary for the multi-threaded search: what can be derived by rewriting. *)
From Coq Require Import List.
Import ListNotations.

Section Derived.
Variables (S P D : Type) (rw : S -> list (S * D)) (add_delta : P -> D -> P).

(** The circuits derived from [s0] by rewrites, with the cost obtained by adding up the cost
    changes that the rewrites report. *)
Inductive derived (s0 : S) (c0 : P) : S -> P -> Prop :=
| derived_refl : derived s0 c0 s0 c0
| derived_step : forall s c s' d, derived s0 c0 s c -> In (s', d) (rw s) -> derived s0 c0 s' (add_delta c d).
End Derived.
Arguments derived {S P D}.

(** Executions of a transition system given by a partial step function on labels. *)
Section Exec.
Variables (St L : Type) (step : L -> St -> option St).
Fixpoint exec (ls : list L) (s : St) : option St :=
  match ls with [] => Some s | l :: ls => match step l s with Some s => exec ls s | None => None end end.
Definition reachable_from (s0 s : St) : Prop := exists ls, exec ls s0 = Some s.
(** No step is possible; every execution from [s] is finite. *)
Definition stuck (s : St) : Prop := forall l, step l s = None.
Definition terminating (s : St) : Prop := Acc (fun s' s => exists l, step l s = Some s') s.
End Exec.
Arguments exec {St L}. Arguments reachable_from {St L}. Arguments stuck {St L}. Arguments terminating {St L}.

(** The circuits derived from [s0] through circuits that [valid] accepts only. *)
Inductive derived_valid {S D : Type} (rw : S -> list (S * D)) (valid : S -> Prop) (s0 : S) : S -> Prop :=
| dv_refl : derived_valid rw valid s0 s0
| dv_step : forall s s' d, derived_valid rw valid s0 s -> In (s', d) (rw s) -> valid s' -> derived_valid rw valid s0 s'.
