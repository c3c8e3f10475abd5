(** Vocabulary for commutation of operations and reordering of circuits. *)
From Coq Require Import Reals List Bool Arith.
From Verif Require Import QComplex QState OpsModel GateSpec QSysSpec CommModel.
Import ListNotations.

(** Two transformations of the state commute. *)
Definition commute (f g : state -> state) : Prop := forall psi, f (g psi) = g (f psi).

(** The Pauli matrices, and a one-qubit matrix applied to a qubit. *)
Definition pauli_mat (p : Pauli) : mat := match p with PI_ => mI | PX => MX | PY => MY | PZ => MZ end.
Definition on (q : nat) (M : mat) : state -> state := CU [] M q.

(** What an operation on the given qubits can do to the state: a gate with some angle, a
    measurement with some outcome, a reset that found some value. Freeing a qubit leaves the
    state as it is. *)
Inductive behaves : TketOp -> list nat -> (state -> state) -> Prop :=
  | behaves_gate op qs a : is_quantum op = true -> length qs = qubits_in op -> NoDup qs -> behaves op qs (op_sem op qs a)
  | behaves_measure q v : behaves Measure [q] (project q v)
  | behaves_measure_free q v : behaves MeasureFree [q] (project q v)
  | behaves_reset q v : behaves Reset [q] (project_reset q v)
  | behaves_free q : behaves QFree [q] (fun psi => psi).

(** Steps performed in order. *)
Definition steps (fs : list (state -> state)) (psi : state) : state := fold_left (fun s f => f s) fs psi.

(** ** Circuits as lists of commands (the data types are those of the model) *)

(** Whether a command acts on a qubit, and the nodes on the wire of a qubit, in order. *)
Definition acts (q : nat) (c : com) : bool := if in_dec unit_eq_dec (Linear q) (c_inputs c) then true else false.
Definition on_wire (q : nat) (cs : list com) : list nat := map c_node (filter (acts q) cs).

(** A command whose operation is [op], applied to distinct qubits among the first [n], followed
    by classical inputs; the operations unknown to the pass are purely classical. *)
Definition qubit_command (n : nat) (c : com) (op : TketOp) (qs : list nat) : Prop :=
  (exists ws, c_inputs c = map Linear qs ++ map (fun w => UWire (fst w) (snd w)) ws) /\
  length qs = qubits_in op /\ qs <> [] /\ NoDup qs /\ (forall q, In q qs -> (q < n)%nat).
Definition classical_command (c : com) : Prop := forall q, ~ In (Linear q) (c_inputs c).
Definition command_ok (optype : nat -> option TketOp) (n : nat) (c : com) : Prop :=
  match optype (c_node c) with Some op => exists qs, qubit_command n c op qs | None => classical_command c end.
Definition circuit_ok (optype : nat -> option TketOp) (n : nat) (cs : list com) : Prop :=
  NoDup (map c_node cs) /\ forall c, In c cs -> command_ok optype n c.

(** An assignment of angles and measurement outcomes: what every node does to the state. *)
Definition valuation (optype : nat -> option TketOp) (n : nat) (cs : list com) (sem : nat -> state -> state) : Prop :=
  forall c, In c cs ->
    match optype (c_node c) with
    | Some op => forall qs, qubit_command n c op qs -> behaves op qs (sem (c_node c))
    | None => forall psi, sem (c_node c) psi = psi
    end.
Definition run_commands (sem : nat -> state -> state) (cs : list com) (psi : state) : state :=
  steps (map (fun c => sem (c_node c)) cs) psi.

(** Every classical input of a command is computed before it. *)
Definition respects_classical (cs : list com) : Prop :=
  forall pre c post m p, cs = pre ++ c :: post -> In (UWire m p) (c_inputs c) -> In m (map c_node pre).
