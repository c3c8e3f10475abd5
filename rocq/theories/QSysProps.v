(** Properties C30 - C32: lowering of tket operations to the QSystem gate set. *)
From Coq Require Import Reals Lra Lia List Bool Arith FunctionalExtensionality.
From Verif Require Import QComplex QState OpsModel GateSpec GateFacts QSysSpec QSysModel QSysProofs QSysProgs QSysMain.
Import ListNotations.
Open Scope R_scope.

(** ** C30 *)

(** Every unitary operation on distinct qubits, whatever the angle, is lowered to QSystem
    gates on distinct qubits among those of the operation, which act like the operation up
    to a global phase. *)
Theorem C30_gate_lowering : forall op qs a,
  is_quantum op = true -> length qs = qubits_in op -> NoDup qs ->
  exists gs, lower_op op qs (op_angles op a) = LGates gs /\ Forall qgate_wf gs /\
    (forall g q, In g gs -> In q (qgate_qubits g) -> In q qs) /\
    eq_upto_phase (qrun gs) (op_sem op qs a).
Proof. exact C30_gate_lowering_pf. Qed.

(** The rotations are lowered exactly, without a phase. *)
Theorem C30_rotations_exact : forall op qs a,
  op = Rx \/ op = Ry \/ op = Rz \/ op = CRz -> length qs = qubits_in op -> NoDup qs ->
  exists gs, lower_op op qs (op_angles op a) = LGates gs /\
    forall psi, qrun gs psi = op_sem op qs a psi.
Proof. exact C30_rotations_exact_pf. Qed.

(** ** C31 *)

(** For each outcome, the lowered measurement leaves the projection of the state on that
    outcome, up to a phase; so it also gives each outcome the same probability (the squared
    norm of the projection). *)
Theorem C31_lowered_measurement : forall q v,
  exists f, lowered_sem (lower_op Measure [q] []) [q] v = Some f /\ eq_upto_phase f (project q v).
Proof. exact C31_lowered_measurement_pf. Qed.

(** Whole executions: for every sequence of gates, measurements and resets and all their
    outcomes, the lowered program leaves the same state up to one global phase. *)
Theorem C31_lowered_execution : forall es, Forall event_wf es ->
  exists f, lower_events es = Some f /\ eq_upto_phase f (events_sem es).
Proof. exact C31_lowered_execution_pf. Qed.

(** ** C32 *)

(** Every operation of the enum is lowered, whatever its wires (in the number its signature
    demands). *)
Theorem C32_every_op_lowered : forall op qs angles,
  length qs = qubits_in op -> length angles = params_in op -> lower_op op qs angles <> LUnknown.
Proof. exact C32_every_op_lowered_pf. Qed.

(** The pass succeeds on every program of well-formed nodes; if there is no symbolic angle
    in it, nothing of the "tket.quantum" extension is left; and the nodes correspond one by
    one, those of other extensions being kept. *)
Theorem C32_pass_complete : forall p,
  (forall op qs angles, In (PTket op qs angles) p ->
     length qs = qubits_in op /\ length angles = params_in op) ->
  exists l, lower_program p = Some l /\ length l = length p /\
    (forall n qs, nth_error p n = Some (PBarrier qs) <-> nth_error l n = Some (LRuntimeBarrier qs)) /\
    (forall n i, nth_error p n = Some (POther i) <-> nth_error l n = Some (LOther i)) /\
    ((forall e, ~ In (PSympy e) p) -> check_lowered l = []).
Proof. exact C32_pass_complete_pf. Qed.

(** With a symbolic angle (the other operation of the extension) the claim is false: it is
    still there after the pass, and [check_lowered] reports it. *)
Theorem C32_symbolic_angle_refuted : forall p e,
  (forall op qs angles, In (PTket op qs angles) p ->
     length qs = qubits_in op /\ length angles = params_in op) ->
  In (PSympy e) p ->
  exists l, lower_program p = Some l /\ In (LSympy e) l /\ check_lowered l <> [].
Proof. exact C32_symbolic_angle_refuted_pf. Qed.

(** ** Instances of the hypotheses *)
Example C30_instance : exists gs, lower_op Toffoli [3; 0; 7]%nat [] = LGates gs /\
  eq_upto_phase (qrun gs) (op_sem Toffoli [3; 0; 7]%nat 0).
Proof.
  destruct (C30_gate_lowering Toffoli [3; 0; 7]%nat 0) as (gs & E & _ & _ & P);
    [reflexivity | reflexivity | repeat constructor; simpl; intuition lia | eauto].
Qed.
Example C31_instance : exists f,
  lower_events [EGate H [0]%nat 0; EGate CX [0; 1]%nat 0; EMeasure 0 true; EReset 1 true] = Some f.
Proof.
  destruct (C31_lowered_execution [EGate H [0]%nat 0; EGate CX [0; 1]%nat 0; EMeasure 0 true; EReset 1 true])
    as (f & E & _); [repeat constructor; simpl; intuition lia | eauto].
Qed.
Example C32_instance : exists l,
  lower_program [PTket QAlloc [] []; PTket Rz [0]%nat [1]; POther 4; PTket QFree [0]%nat []] = Some l /\
  check_lowered l = [].
Proof.
  destruct (C32_pass_complete [PTket QAlloc [] []; PTket Rz [0]%nat [1]; POther 4; PTket QFree [0]%nat []])
    as (l & E & _ & _ & _ & Hc).
  - intros op qs angles [E|[E|[E|[E|[]]]]]; inversion E; split; reflexivity.
  - exists l; split; [assumption|]. apply Hc. intros e [E'|[E'|[E'|[E'|[]]]]]; discriminate.
Qed.
Example C32_refuted_instance : exists l, lower_program [PSympy 0; PTket Rz [0]%nat [1]] = Some l /\
  check_lowered l <> [].
Proof.
  destruct (C32_symbolic_angle_refuted [PSympy 0; PTket Rz [0]%nat [1]] 0) as (l & E & _ & Hc);
   [| left; reflexivity | eauto].
  intros op qs angles [E|[E|[]]]; inversion E; split; reflexivity.
Qed.

Print Assumptions C30_gate_lowering.
Print Assumptions C30_rotations_exact.
Print Assumptions C31_lowered_measurement.
Print Assumptions C31_lowered_execution.
Print Assumptions C32_every_op_lowered.
Print Assumptions C32_pass_complete.
Print Assumptions C32_symbolic_angle_refuted.
