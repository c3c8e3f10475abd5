(** Model of the operation enum of tket: tket/src/ops.rs. *)
From Coq Require Import List Bool Arith.
Import ListNotations.

(** tket/src/ops.rs:43-68, enum TketOp (same 24 constructors). *)
Inductive TketOp : Type :=
| H | CX | CY | CZ | CRz | T | Tdg | S | Sdg | X | Y | Z | Rx | Ry | Rz | Toffoli
| Measure | MeasureFree | QAlloc | TryQAlloc | QFree | Reset | V | Vdg.

(** The derived PartialEq of the enum (tket/src/ops.rs:25-39). *)
Definition op_eq_dec (a b : TketOp) : {a = b} + {a <> b}.
Proof. decide equality. Defined.
Definition op_eqb (a b : TketOp) : bool := if op_eq_dec a b then true else false.

(** All constructors, in declaration order (strum's EnumIter, tket/src/ops.rs:36). *)
Definition all_ops : list TketOp :=
  [H; CX; CY; CZ; CRz; T; Tdg; S; Sdg; X; Y; Z; Rx; Ry; Rz; Toffoli;
   Measure; MeasureFree; QAlloc; TryQAlloc; QFree; Reset; V; Vdg].

(** Number of qubit inputs in the signature: tket/src/ops.rs:111-126, init_signature. *)
Definition qubits_in (op : TketOp) : nat :=
  match op with
  | H | T | S | V | X | Y | Z | Tdg | Sdg | Vdg | Reset => 1
  | CX | CZ | CY => 2
  | Toffoli => 3
  | Measure | MeasureFree => 1
  | Rz | Rx | Ry => 1
  | CRz => 2
  | QAlloc | TryQAlloc => 0
  | QFree => 1
  end.

(** Number of (bare) qubit outputs: tket/src/ops.rs:111-126. TryQAlloc returns an option. *)
Definition qubits_out (op : TketOp) : nat :=
  match op with
  | H | T | S | V | X | Y | Z | Tdg | Sdg | Vdg | Reset => 1
  | CX | CZ | CY => 2
  | Toffoli => 3
  | Measure => 1 | MeasureFree => 0
  | Rz | Rx | Ry => 1
  | CRz => 2
  | QAlloc => 1 | TryQAlloc => 0
  | QFree => 0
  end.

(** Number of rotation inputs: tket/src/ops.rs:111-126. *)
Definition params_in (op : TketOp) : nat :=
  match op with Rz | Rx | Ry | CRz => 1 | _ => 0 end.

(** Number of boolean outputs: tket/src/ops.rs:111-126 (Measure and MeasureFree). *)
Definition bools_out (op : TketOp) : nat :=
  match op with Measure | MeasureFree => 1 | _ => 0 end.

(** tket/src/ops.rs:174-181, TketOp::is_quantum. *)
Definition is_quantum (op : TketOp) : bool :=
  match op with
  | H | CX | T | S | V | X | Y | Z | Tdg | Sdg | Vdg | Rz | Rx | Toffoli | Ry | CZ | CY | CRz => true
  | Measure | MeasureFree | QAlloc | TryQAlloc | QFree | Reset => false
  end.

(** tket/src/ops.rs:89-98, enum Pauli. *)
Inductive Pauli : Type := PI_ | PX | PY | PZ.
Definition pauli_eqb (a b : Pauli) : bool :=
  match a, b with PI_, PI_ | PX, PX | PY, PY | PZ, PZ => true | _, _ => false end.

(** tket/src/ops.rs:102-104, Pauli::commutes_with. *)
Definition commutes_with (p q : Pauli) : bool :=
  pauli_eqb p PI_ || pauli_eqb q PI_ || pauli_eqb p q.

(** tket/src/ops.rs:159-171, TketOp::qubit_commutation. *)
Definition qubit_commutation (op : TketOp) : list (nat * Pauli) :=
  match op with
  | X | V | Vdg | Rx => [(0, PX)]
  | Y => [(0, PY)]
  | T | Z | S | Tdg | Sdg | Rz | Measure => [(0, PZ)]
  | CX => [(0, PZ); (1, PX)]
  | CZ => [(0, PZ); (1, PZ)]
  | _ => []
  end.
