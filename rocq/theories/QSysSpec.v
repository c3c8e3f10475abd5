(** The textbook meaning of the QSystem primitive gates. Angles are in radians.

    Rz(l) = exp(-i l/2 Z); PhasedX(th, ph) = Rz(ph) Rx(th) Rz(-ph);
    ZZPhase(th) = exp(-i th/2 Z (x) Z).

    Measurements are described branch by branch: the state left by an outcome is the
    projection of the state on that outcome, not normalised. *)
From Coq Require Import Reals List Bool Arith.
From Verif Require Import QComplex QState OpsModel GateSpec.
Import ListNotations.
Open Scope R_scope.

Definition QRzM (l : R) : mat := Mat (cexp (- (l / 2))) 0%C 0%C (cexp (l / 2)).
Definition QRxM (t : R) : mat :=
  Mat (cos (t / 2), 0) (0, - sin (t / 2)) (0, - sin (t / 2)) (cos (t / 2), 0).
Definition QPhasedXM (t p : R) : mat := mmul (QRzM p) (mmul (QRxM t) (QRzM (- p))).

Inductive qgate : Type :=
| QRz (q : nat) (l : R)
| QPhasedX (q : nat) (t p : R)
| QZZ (q1 q2 : nat) (t : R).

Definition qgate_sem (g : qgate) : state -> state :=
  match g with
  | QRz q l => CU [] (QRzM l) q
  | QPhasedX q t p => CU [] (QPhasedXM t p) q
  | QZZ q1 q2 t => fun psi b =>
      ((if Bool.eqb (b q1) (b q2) then cexp (- (t / 2)) else cexp (t / 2)) * psi b)%C
  end.

Definition qrun (gs : list qgate) (psi : state) : state :=
  fold_left (fun s g => qgate_sem g s) gs psi.

Definition qgate_wf (g : qgate) : Prop :=
  match g with QZZ a b _ => a <> b | _ => True end.

(** Projection of qubit [q] on the outcome [v]. *)
Definition project (q : nat) (v : bool) (psi : state) : state :=
  fun b => if Bool.eqb (b q) v then psi b else 0%C.

(** Projection on the outcome [v], after which the qubit is put in the state 0. *)
Definition project_reset (q : nat) (v : bool) (psi : state) : state :=
  fun b => if b q then 0%C else psi (upd b q v).

(** One step of an execution of a tket circuit on fixed measurement outcomes: a gate, a
    measurement of [q] with outcome [v], a reset of [q] that found it in [v]. *)
Inductive event : Type :=
| EGate (op : TketOp) (qs : list nat) (a : R)
| EMeasure (q : nat) (v : bool)
| EReset (q : nat) (v : bool).

Definition event_sem (e : event) : state -> state :=
  match e with
  | EGate op qs a => op_sem op qs a
  | EMeasure q v => project q v
  | EReset q v => project_reset q v
  end.

Definition event_wf (e : event) : Prop :=
  match e with
  | EGate op qs _ => is_quantum op = true /\ length qs = qubits_in op /\ NoDup qs
  | _ => True
  end.

Definition events_sem (es : list event) (psi : state) : state :=
  fold_left (fun s e => event_sem e s) es psi.

(** The qubits a gate mentions. *)
Definition qgate_qubits (g : qgate) : list nat :=
  match g with QRz q _ | QPhasedX q _ _ => [q] | QZZ a b _ => [a; b] end.
