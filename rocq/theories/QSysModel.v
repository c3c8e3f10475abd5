(** Model of the lowering of tket operations to QSystem operations:
    tket-qsystem/src/extension/qsystem.rs (QSystemOpBuilder) and qsystem/lower.rs.

    A builder method that adds nodes to a dataflow graph is a function returning the list of
    emitted primitives on named qubits (a [nat] per linear wire), in the order in which the
    code adds them; in all methods output wire i is the wire of input i, so names stand for
    ports. [pi_mul_f64(x)] is the real PI * x: floating-point rounding is not modelled. *)
From Coq Require Import Reals List Bool Arith.
From Verif Require Import QState OpsModel QSysSpec.
Import ListNotations.
Open Scope R_scope.

(** lower.rs:35-37, pi_mul_f64. *)
Definition pim (x : R) : R := x * PI.

(** qsystem.rs:259-263, build_zz_max. *)
Definition zz_max (a b : nat) : list qgate := [QZZ a b (pim (/ 2))].

(** qsystem.rs:312-320 *)
Definition build_h (q : nat) := [QPhasedX q (pim (/ 2)) (pim (- / 2)); QRz q (pim 1)].
(** qsystem.rs:322-327 *)
Definition build_x (q : nat) := [QPhasedX q (pim 1) (pim 0)].
(** qsystem.rs:329-334 *)
Definition build_y (q : nat) := [QPhasedX q (pim 1) (pim (/ 2))].
(** qsystem.rs:336-340 *)
Definition build_z (q : nat) := [QRz q (pim 1)].
(** qsystem.rs:342-346 *)
Definition build_s (q : nat) := [QRz q (pim (/ 2))].
(** qsystem.rs:348-352 *)
Definition build_sdg (q : nat) := [QRz q (pim (- / 2))].
(** qsystem.rs:354-359 *)
Definition build_v (q : nat) := [QPhasedX q (pim (/ 2)) (pim 0)].
(** qsystem.rs:361-366 *)
Definition build_vdg (q : nat) := [QPhasedX q (pim (- / 2)) (pim 0)].
(** qsystem.rs:368-372 *)
Definition build_t (q : nat) := [QRz q (pim (/ 4))].
(** qsystem.rs:374-378 *)
Definition build_tdg (q : nat) := [QRz q (pim (- / 4))].
(** qsystem.rs:380-394 *)
Definition build_cx (c t : nat) :=
  [QPhasedX t (pim (- / 2)) (pim (/ 2))] ++ zz_max c t ++
  [QRz c (pim (- / 2)); QPhasedX t (pim (/ 2)) (pim 1); QRz t (pim (- / 2))].
(** qsystem.rs:396-410 *)
Definition build_cy (a b : nat) :=
  [QPhasedX a (pim 1) (pim 1); QPhasedX b (pim (- / 2)) (pim 1)] ++ zz_max a b ++
  [QPhasedX a (pim 1) (pim (/ 2)); QPhasedX b (pim (- / 2)) (pim (- / 2));
   QRz a (pim (- / 2)); QRz b (pim (/ 2))].
(** qsystem.rs:412-421 *)
Definition build_cz (a b : nat) := zz_max a b ++ [QRz b (pim (- / 2)); QRz a (pim (- / 2))].
(** qsystem.rs:423-427 *)
Definition build_rx (q : nat) (theta : R) := [QPhasedX q theta (pim 0)].
(** qsystem.rs:429-433 *)
Definition build_ry (q : nat) (theta : R) := [QPhasedX q theta (pim (/ 2))].
(** qsystem.rs:435-448; fdiv and fneg as real division and opposite *)
Definition build_crz (a b : nat) (lambda : R) := [QZZ a b (- (lambda / 2)); QRz b (lambda / 2)].
(** qsystem.rs:450-479 *)
Definition build_toffoli (a b c : nat) :=
  [QPhasedX c (pim 1) (pim (- / 2))] ++ zz_max b c ++
  [QPhasedX c (pim (/ 4)) (pim (/ 2))] ++ zz_max a c ++
  [QPhasedX c (pim (/ 4)) (pim 0)] ++ zz_max b c ++
  [QPhasedX c (pim (/ 4)) (pim (- / 2))] ++ zz_max a c ++
  [QPhasedX a (pim 1) (pim (/ 4)); QPhasedX c (pim (- (3 / 4))) (pim 1);
   QZZ a b (pim (/ 4)); QRz c (pim 1); QPhasedX a (pim 1) (pim (- / 4));
   QRz b (pim (- (3 / 4))); QRz a (pim (/ 4))].

(** lower.rs:203-208, build_to_radians: the rotation [a] is in half turns. *)
Definition to_radians (a : R) : R := a * pim 1.

(** The QSystem operations that are not unitary gates, qsystem.rs:85-97. *)
Inductive QNonUnitary : Type := QMeasure | QMeasureReset | QTryQAlloc | QQFree | QReset.

(** What an operation is replaced by. *)
Inductive lowered : Type :=
| LDirect (o : QNonUnitary)          (* lower.rs:114-121, a single operation *)
| LGates (gs : list qgate)           (* lower.rs:123-136, a call to a function of gates *)
| LMeasureFlip (q : nat)             (* ... to build_measure_flip on qubit q *)
| LQAlloc                            (* ... to build_qalloc *)
| LUnknown.                          (* LowerTk2Error::UnknownOp *)

(** lower.rs:210-218, direct_map. *)
Definition direct_map (op : TketOp) : option QNonUnitary :=
  match op with
  | TryQAlloc => Some QTryQAlloc
  | QFree => Some QQFree
  | Reset => Some QReset
  | MeasureFree => Some QMeasure
  | _ => None
  end.

(** lower.rs:158-201, build_func: [qs] are the qubit inputs, [angles] the rotation inputs. *)
Definition build_func (op : TketOp) (qs : list nat) (angles : list R) : lowered :=
  match op, qs, angles with
  | H, [q], [] => LGates (build_h q)
  | X, [q], [] => LGates (build_x q)
  | Y, [q], [] => LGates (build_y q)
  | Z, [q], [] => LGates (build_z q)
  | S, [q], [] => LGates (build_s q)
  | Sdg, [q], [] => LGates (build_sdg q)
  | V, [q], [] => LGates (build_v q)
  | Vdg, [q], [] => LGates (build_vdg q)
  | T, [q], [] => LGates (build_t q)
  | Tdg, [q], [] => LGates (build_tdg q)
  | Measure, [q], [] => LMeasureFlip q
  | QAlloc, [], [] => LQAlloc
  | CX, [c; t], [] => LGates (build_cx c t)
  | CY, [c; t], [] => LGates (build_cy c t)
  | CZ, [c; t], [] => LGates (build_cz c t)
  | Rx, [q], [a] => LGates (build_rx q (to_radians a))
  | Ry, [q], [a] => LGates (build_ry q (to_radians a))
  | Rz, [q], [a] => LGates [QRz q (to_radians a)]
  | CRz, [c; t], [a] => LGates (build_crz c t (to_radians a))
  | Toffoli, [a; b; c], [] => LGates (build_toffoli a b c)
  | _, _, _ => LUnknown
  end.

(** lower.rs:111-137, the replacement of one operation. *)
Definition lower_op (op : TketOp) (qs : list nat) (angles : list R) : lowered :=
  match direct_map op with
  | Some o => LDirect o
  | None => build_func op qs angles
  end.

(** qsystem.rs:481-509, build_measure_flip: MeasureReset, then X on outcome 1. The code run
    for a given outcome, after MeasureReset has left the qubit in state 0. *)
Definition flip_branch (q : nat) (outcome : bool) : list qgate :=
  if outcome then build_x q else [].

(** ** The pass on a program *)

(** Operation nodes of a program: tket operations (with their wires), the other operation of
    the "tket.quantum" extension (the symbolic angle, extension.rs:95-103), operations of
    other extensions, barriers. *)
Inductive pnode : Type :=
| PTket (op : TketOp) (qs : list nat) (angles : list R)
| PSympy (expr : nat)
| PBarrier (qs : list nat)
| POther (id : nat).
Inductive lnode : Type :=
| LN (l : lowered)
| LSympy (expr : nat)
| LRuntimeBarrier (qs : list nat)   (* the barrier plus a runtime barrier on its qubits *)
| LOther (id : nat).

(** lower.rs:89-156, lower_tk2_op; [None] when an operation is not recognised. The nodes of
    the program are replaced one by one; ReplaceTypes is taken to replace every node whose
    operation has a registered replacement. *)
Fixpoint lower_program (p : list pnode) : option (list lnode) :=
  match p with
  | [] => Some []
  | n :: rest =>
    let l := match n with
      | PTket op qs angles =>
          match lower_op op qs angles with LUnknown => None | l => Some (LN l) end
      | PSympy e => Some (LSympy e)
      | PBarrier qs => Some (LRuntimeBarrier qs)
      | POther i => Some (LOther i)
      end in
    match l, lower_program rest with
    | Some l, Some rest => Some (l :: rest)
    | _, _ => None
    end
  end.

(** lower.rs:224-243, check_lowered: the nodes left in the "tket.quantum" extension. *)
Definition is_tket_quantum (n : lnode) : bool :=
  match n with LSympy _ => true | _ => false end.
Definition check_lowered (p : list lnode) : list lnode := filter is_tket_quantum p.

(** What the replacement of an operation on the qubits [qs] does on the outcome [v]
    (meaning of the emitted QSystem operations, QSysSpec): gates; MeasureReset followed by the
    branch of the outcome; a measurement; a reset. [None] for the operations on the set of
    allocated qubits, whose effect is not described. *)
Definition lowered_sem (l : lowered) (qs : list nat) (v : bool) : option (state -> state) :=
  match l, qs with
  | LGates gs, _ => Some (qrun gs)
  | LMeasureFlip q, _ => Some (fun psi => qrun (flip_branch q v) (project_reset q v psi))
  | LDirect QMeasure, [q] => Some (project q v)
  | LDirect QReset, [q] => Some (project_reset q v)
  | _, _ => None
  end.

(** The rotation inputs of an operation with the angle [a]. *)
Definition op_angles (op : TketOp) (a : R) : list R :=
  match params_in op with O => [] | _ => [a] end.

(** The execution of the lowered circuit on the outcomes of an execution of the source. *)
Definition lower_event (e : event) : option (state -> state) :=
  match e with
  | EGate op qs a => lowered_sem (lower_op op qs (op_angles op a)) qs false
  | EMeasure q v => lowered_sem (lower_op Measure [q] []) [q] v
  | EReset q v => lowered_sem (lower_op Reset [q] []) [q] v
  end.
Fixpoint lower_events (es : list event) : option (state -> state) :=
  match es with
  | [] => Some (fun psi => psi)
  | e :: rest =>
    match lower_event e, lower_events rest with
    | Some f, Some g => Some (fun psi => g (f psi))
    | _, _ => None
    end
  end.
