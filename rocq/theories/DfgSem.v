(** Vocabulary for the meaning of the gates of a region, on states of qubits. *)
From Coq Require Import Reals List Bool Arith.
From Verif Require Import OpsModel DfgModel DfgSpec QComplex QState GateSpec ModifierModel.
Import ListNotations.
Open Scope R_scope.

Section Sem.
Variable A : Type.
(** The angle, in half turns, which a classical value stands for. *)
Variable ang : A -> R.

Definition angle (a : option A) : R := match a with Some v => ang v | None => 0 end.

(** The gate without its dagger and controls. *)
Definition gate_of (e : event A) : gate :=
  match e with
  | Ev (Tk o) _ _ ts a => G o ts (angle a)
  | Ev Ph _ _ _ a => GPhase (angle a)
  end.

(** The transformation of a gate: performed when all its controls are 1, inverted under a
    dagger. *)
Definition event_sem (e : event A) : QState.state -> QState.state :=
  match e with
  | Ev (Tk o) d cs ts a => when_all1 cs (if d then op_sem_dag o ts (angle a) else op_sem o ts (angle a))
  | Ev Ph d cs _ a => when_all1 cs (Sc (cexp (PI * (if d then - angle a else angle a))))
  end.
Definition events_sem (es : list (event A)) (psi : QState.state) : QState.state :=
  fold_left (fun s e => event_sem e s) es psi.

(** [r] is what the code makes of the gate (see [ModifierModel]), with the controls and the
    qubits on the same wires after it. *)
Definition synthesised (e : event A) (r : mres) : Prop :=
  match e with
  | Ev (Tk o) d cs ts a => synthesize o d cs ts (angle a) = Ok r /\ r_cs r = cs /\ r_out r = ts
  | Ev Ph d cs _ a => synthesize_phase d cs (angle a) = Ok r /\ r_cs r = cs
  end.

(** The gates for which controls are right (C22, C24, C25). *)
Definition right_with (n : nat) (o : gop) : Prop :=
  match o with
  | Tk Z => (n <= 1)%nat
  | Tk CZ | Tk Toffoli => n = 0%nat
  | _ => True
  end.
End Sem.

Arguments angle {A}.
Arguments gate_of {A}.
Arguments event_sem {A}.
Arguments events_sem {A}.
Arguments synthesised {A}.
