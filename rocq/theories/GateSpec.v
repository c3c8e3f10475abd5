(** The textbook meaning of the tket gates, used to state properties.

    Angles are in half turns, as in tket: a rotation by [a] half turns is a rotation by
    [PI * a] radians, and Rz(a) = exp(-i PI a/2 Z). V is the square root of X (V V = X),
    S = diag(1, i), T = diag(1, exp(i PI/4)). Toffoli, CX, CY, CZ, CRz are X, X, Y, Z, Rz
    controlled by all qubit arguments but the last. *)
From Coq Require Import Reals List Bool Arith.
From Verif Require Import QComplex QState OpsModel.
Import ListNotations.
Open Scope R_scope.

Definition MX : mat := Mat 0%C 1%C 1%C 0%C.
Definition MY : mat := Mat 0%C (- Ci)%C Ci 0%C.
Definition MZ : mat := Mat 1%C 0%C 0%C (- (1))%C.
Definition MH : mat :=
  Mat (RtoC (/ sqrt 2)) (RtoC (/ sqrt 2)) (RtoC (/ sqrt 2)) (RtoC (- / sqrt 2)).
Definition MS : mat := Mat 1%C 0%C 0%C Ci.
Definition MT : mat := Mat 1%C 0%C 0%C (cexp (PI / 4)).
Definition MV : mat :=
  Mat (/ 2, / 2) (/ 2, - / 2) (/ 2, - / 2) (/ 2, / 2).
Definition MRz (a : R) : mat := Mat (cexp (- (PI * a / 2))) 0%C 0%C (cexp (PI * a / 2)).
Definition MRx (a : R) : mat :=
  Mat (cos (PI * a / 2), 0) (0, - sin (PI * a / 2)) (0, - sin (PI * a / 2)) (cos (PI * a / 2), 0).
Definition MRy (a : R) : mat :=
  Mat (cos (PI * a / 2), 0) (- sin (PI * a / 2), 0) (sin (PI * a / 2), 0) (cos (PI * a / 2), 0).

(** Matrix acting on the last qubit argument of a unitary operation; [a] is the rotation
    angle, ignored by operations without one. The last line is for the non-unitary ones. *)
Definition op_mat (op : TketOp) (a : R) : mat :=
  match op with
  | X | CX | Toffoli => MX
  | Y | CY => MY
  | Z | CZ => MZ
  | H => MH
  | S => MS | Sdg => mdag MS
  | T => MT | Tdg => mdag MT
  | V => MV | Vdg => mdag MV
  | Rx => MRx a | Ry => MRy a | Rz | CRz => MRz a
  | Measure | MeasureFree | QAlloc | TryQAlloc | QFree | Reset => mI
  end.

(** The unitary operation [op] on the qubits [qs]: all but the last control. *)
Definition op_sem (op : TketOp) (qs : list nat) (a : R) : state -> state :=
  CU (removelast qs) (op_mat op a) (last qs O).

(** Its inverse. *)
Definition op_sem_dag (op : TketOp) (qs : list nat) (a : R) : state -> state :=
  CU (removelast qs) (mdag (op_mat op a)) (last qs O).

(** [op] controlled by the qubits [cs]: acts as [op] when all of [cs] are 1. *)
Definition controlled (cs : list nat) (op : TketOp) (qs : list nat) (a : R) : state -> state :=
  fun psi b => if all1 cs b then op_sem op qs a psi b else psi b.
Definition controlled_dag (cs : list nat) (op : TketOp) (qs : list nat) (a : R) : state -> state :=
  fun psi b => if all1 cs b then op_sem_dag op qs a psi b else psi b.

(** A circuit as a list of gates on named qubits, in time order. A global phase of [a]
    half turns multiplies the state by exp(i PI a). *)
Inductive gate : Type :=
| G (op : TketOp) (qs : list nat) (a : R)
| GPhase (a : R).

Definition gate_sem (g : gate) : state -> state :=
  match g with
  | G op qs a => op_sem op qs a
  | GPhase a => Sc (cexp (PI * a))
  end.

Definition run (gs : list gate) (psi : state) : state :=
  fold_left (fun s g => gate_sem g s) gs psi.

(** A gate is well formed: a unitary operation, right number of distinct qubits. *)
Definition gate_wf (g : gate) : Prop :=
  match g with
  | G op qs _ => is_quantum op = true /\ length qs = qubits_in op /\ NoDup qs
  | GPhase _ => True
  end.

Definition is_phase (g : gate) : bool := match g with GPhase _ => true | _ => false end.
(** The circuit with its global phases removed. *)
Definition drop_phases (gs : list gate) : list gate := filter (fun g => negb (is_phase g)) gs.

(** Equality of circuits up to one global phase, a complex number of modulus one. *)
Definition eq_upto_phase (f g : state -> state) : Prop :=
  exists t : R, forall psi, f psi = Sc (cexp t) (g psi).

(** The transformation [f] performed only when all of [cs] are 1. *)
Definition when_all1 (cs : list nat) (f : state -> state) : state -> state :=
  fun psi b => if all1 cs b then f psi b else psi b.

(** The qubits a gate mentions. *)
Definition gate_qubits (g : gate) : list nat :=
  match g with G _ qs _ => qs | GPhase _ => [] end.

(** Exchange the contents of two qubits. *)
Definition swap_qubits (x y : nat) (psi : state) : state :=
  fun b => psi (upd (upd b x (b y)) y (b x)).
