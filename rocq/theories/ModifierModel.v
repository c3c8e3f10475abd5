(** Model of the synthesis of controlled / daggered gates:
    tket/src/modifier/modifier_resolver/tket_op_modify.rs and global_phase_modify.rs.

    The Rust code adds nodes to a graph and threads wires. Qubit wires are linear, so here
    a wire is identified with the name (a [nat]) of the qubit it carries, and the code
    becomes a function that returns the list of emitted gates in an order compatible with
    every wire (the order in which the code connects them), together with
    - the contents of [self.controls] after the call,
    - the contents of the [ancilla] vector after the call,
    - the names found on the output ports of the modified operation, in port order.
    With [dagger] set the Rust [PortVector] lists the ports of the original operation, so
    its [incoming] ports are physically the outputs; here [ts] are always the physical
    inputs and the returned names the physical outputs.
    The field [modifiers.control] equals [controls.len()] whenever [modify_tket_op] or
    [modify_global_phase] is called (set next to each change of [controls], asserted at
    lines 438 and 464), so it is modelled by the length of the list.
    Rotation angles are reals in half turns; the f64 arithmetic on them
    (to_halfturns, fneg, fmul, from_halfturns_unchecked) is modelled exactly, without
    rounding. *)
From Coq Require Import Reals List Bool Arith.
From Verif Require Import OpsModel GateSpec.
Import ListNotations.
Open Scope R_scope.

(** Result of a call: [Err] is Rust's Err(..), [Panic] an unwrap/index/unreachable panic,
    [OutOfFuel] the artefact of bounding the recursion. *)
Inductive outcome (A : Type) : Type :=
| Ok (a : A) | Err | Panic | OutOfFuel.
Arguments Ok {A} a.
Arguments Err {A}.
Arguments Panic {A}.
Arguments OutOfFuel {A}.

Definition obind {A B} (x : outcome A) (f : A -> outcome B) : outcome B :=
  match x with Ok a => f a | Err => Err | Panic => Panic | OutOfFuel => OutOfFuel end.
Notation "'let!' p ':=' x 'in' y" := (obind x (fun p => y))
  (at level 200, p pattern, x at level 100, y at level 200, right associativity).

(** Vec::pop().unwrap() : the last element and the rest. *)
Definition vpop (l : list nat) : outcome (list nat * nat) :=
  match rev l with [] => Panic | x :: r => Ok (rev r, x) end.
(** Indexing [v[i]]. *)
Definition vget (l : list nat) (i : nat) : outcome nat :=
  match nth_error l i with Some x => Ok x | None => Panic end.

Record mres : Type := MRes {
  r_gates : list gate;      (* emitted gates, time order *)
  r_cs : list nat;          (* self.controls afterwards *)
  r_anc : list nat;         (* ancilla afterwards *)
  r_out : list nat          (* names on the output ports *)
}.

(** tket_op_modify.rs:489-540, CombinedModifier::modified. *)
Definition modified (control : nat) (dagger : bool) (op : TketOp) : option TketOp :=
  match op, control with
  | X, O => Some X | X, 1%nat => Some CX | X, 2%nat => Some Toffoli
  | Y, O => Some Y | Y, 1%nat => Some CY
  | Z, O => Some Z | Z, 1%nat => Some CZ
  | CX, O => Some CX | CX, 1%nat => Some Toffoli
  | CY, O => Some CY
  | CZ, O => Some CZ
  | Toffoli, O => Some Toffoli
  | H, O => Some H
  | Rz, O => Some Rz | Rz, 1%nat => Some CRz
  | CRz, O => Some CRz
  | Rx, O => Some Rx
  | Ry, O => Some Ry
  | T, O => Some (if dagger then Tdg else T)
  | Tdg, O => Some (if dagger then T else Tdg)
  | S, O => Some (if dagger then Sdg else S)
  | Sdg, O => Some (if dagger then S else Sdg)
  | V, O => Some (if dagger then Vdg else V)
  | Vdg, O => Some (if dagger then V else Vdg)
  | Measure, O | MeasureFree, O | QAlloc, O | TryQAlloc, O | QFree, O | Reset, O =>
      if dagger then None else Some op
  | _, _ => None
  end.

(** tket_op_modify.rs:543-557, CombinedModifier::rot_angle (op = phase(a) * U(2a)). *)
Definition rot_angle (dagger : bool) (op : TketOp) : option (TketOp * R) :=
  let neg (a : R) := if dagger then - a else a in
  match op with
  | S => Some (Rz, neg (/ 4))
  | T => Some (Rz, neg (/ 8))
  | Tdg => Some (Rz, neg (- / 8))
  | Sdg => Some (Rz, neg (- / 4))
  | V => Some (Rx, neg (/ 4))
  | Vdg => Some (Rx, neg (- / 4))
  | _ => None
  end.

(** Guard of the first arm, tket_op_modify.rs:35-39. *)
Definition direct_gate (op : TketOp) (control : nat) : bool :=
  match op with
  | X | CX | Toffoli | Y | CY | Z | CZ | S | Sdg | T | Tdg | V | Vdg | H =>
      (control =? 0)%nat
      || ((control <? 3)%nat && op_eqb op X)
      || ((control =? 1)%nat && (op_eqb op CX || op_eqb op Y || op_eqb op Z))
  | _ => false
  end.

(** Guard of the second arm, tket_op_modify.rs:58. *)
Definition direct_rot (op : TketOp) (control : nat) : bool :=
  match op with
  | Rz | CRz | Rx | Ry => (control =? 0)%nat || ((control =? 1)%nat && op_eqb op Rz)
  | _ => false
  end.

Definition is_nil (l : list nat) : bool := match l with [] => true | _ => false end.

(** tket_op_modify.rs:17-483 (modify_tket_op) and global_phase_modify.rs:22-103
    (modify_global_phase). The Rust functions recurse on each other; [fuel] bounds the
    depth of the recursion and is shown sufficient in the proofs. *)
Fixpoint modify_tket_op (fuel : nat) (op : TketOp) (dagger : bool)
    (cs anc ts : list nat) (a : R) {struct fuel} : outcome mres :=
  match fuel with
  | O => OutOfFuel
  | Datatypes.S fuel =>
    let control := length cs in
    (* lines 27-33 *)
    if (negb (control =? 0)%nat || dagger) && negb (is_quantum op) then Err else
    (* lines 35-57: the modified gate exists in the gate set. Controls first. *)
    if direct_gate op control then
      match modified control dagger op with
      | None => Panic
      | Some g => Ok (MRes [G g (cs ++ ts) a] cs anc ts)
      end else
    (* lines 58-112: rotations; the angle is negated under dagger. *)
    if direct_rot op control then
      match modified control dagger op with
      | None => Panic
      | Some g => Ok (MRes [G g (cs ++ ts) (if dagger then - a else a)] cs anc ts)
      end else
    match op with
    | H =>
      (* lines 113-140 *)
      if negb dagger then
        let! r1 := modify_tket_op fuel Ry dagger cs anc ts (/ 2) in
        let! r2 := modify_tket_op fuel X dagger (r_cs r1) (r_anc r1) (r_out r1) a in
        Ok (MRes (r_gates r1 ++ r_gates r2) (r_cs r2) (r_anc r2) (r_out r2))
      else
        let! r1 := modify_tket_op fuel X dagger cs anc ts a in
        let! r2 := modify_tket_op fuel Ry dagger (r_cs r1) (r_anc r1) (r_out r1) (/ 2) in
        Ok (MRes (r_gates r1 ++ r_gates r2) (r_cs r2) (r_anc r2) (r_out r2))
    | Rx =>
      (* lines 141-148 *)
      let! t := vget ts 0 in
      let! r := modify_tket_op fuel Rz dagger cs anc ts a in
      let! t' := vget (r_out r) 0 in
      Ok (MRes (G H [t] 0 :: r_gates r ++ [G H [t'] 0]) (r_cs r) (r_anc r) (r_out r))
    | Ry | CY =>
      (* lines 149-166. With or without dagger, Sdg is on the physical input side. *)
      let targ := match op with CY => 1%nat | _ => 0%nat end in
      let g := match op with CY => CX | _ => Rx end in
      let! t := vget ts targ in
      let! r := modify_tket_op fuel g dagger cs anc ts a in
      let! t' := vget (r_out r) targ in
      Ok (MRes (G Sdg [t] 0 :: r_gates r ++ [G S [t'] 0]) (r_cs r) (r_anc r) (r_out r))
    | T | Tdg | S | Sdg | V | Vdg =>
      (* lines 167-200 *)
      match rot_angle dagger op with
      | None => Panic
      | Some (g, angle) =>
        let! r := modify_tket_op fuel g false cs anc ts (angle * 2) in
        let! t := vget (r_out r) 0 in
        (* with_ancilla(t) { modify_global_phase } *)
        let! p := modify_global_phase fuel false (r_cs r) (r_anc r ++ [t]) angle in
        let! (anc', t') := vpop (r_anc p) in
        Ok (MRes (r_gates r ++ r_gates p) (r_cs p) anc' (t' :: tl (r_out r)))
      end
    | Toffoli =>
      if negb (is_nil anc) then
        (* lines 202-273 *)
        let! (anc, a0) := vpop anc in
        let n := (control / 2)%nat in
        let cs1 := firstn n cs in
        let cs2 := skipn n cs in
        let! x := vget ts 0 in
        let! y := vget ts 1 in
        let! t := vget ts 2 in
        (* 1. Cn+2X(cs1,x,y,a) with cs2.last as ancilla *)
        let! (cs2i, l) := vpop cs2 in
        let! r1 := modify_tket_op fuel Toffoli false cs1 (anc ++ [l]) [x; y; a0] 0 in
        let! (anc, l) := vpop (r_anc r1) in
        let cs2 := cs2i ++ [l] in
        let cs1 := r_cs r1 in
        let! x := vget (r_out r1) 0 in
        let! y := vget (r_out r1) 1 in
        let! a1 := vget (r_out r1) 2 in
        (* 2. Cm+1X(cs2,a,t) with x as ancilla *)
        let! r2 := modify_tket_op fuel CX false cs2 (anc ++ [x]) [a1; t] 0 in
        let! (anc, x) := vpop (r_anc r2) in
        let cs2 := r_cs r2 in
        let! a2 := vget (r_out r2) 0 in
        let! t := vget (r_out r2) 1 in
        (* 3. Cn+2X(cs1,x,y,a) *)
        let! (cs2i, l) := vpop cs2 in
        let! r3 := modify_tket_op fuel Toffoli false cs1 (anc ++ [l]) [x; y; a2] 0 in
        let! (anc, l) := vpop (r_anc r3) in
        let cs2 := cs2i ++ [l] in
        let cs1 := r_cs r3 in
        let! x := vget (r_out r3) 0 in
        let! y := vget (r_out r3) 1 in
        let! a3 := vget (r_out r3) 2 in
        (* 4. Cm+1X(cs2,a,t) *)
        let! r4 := modify_tket_op fuel CX false cs2 (anc ++ [x]) [a3; t] 0 in
        let! (anc, x) := vpop (r_anc r4) in
        let cs2 := r_cs r4 in
        let! a4 := vget (r_out r4) 0 in
        let! t := vget (r_out r4) 1 in
        Ok (MRes (r_gates r1 ++ r_gates r2 ++ r_gates r3 ++ r_gates r4)
                 (cs1 ++ cs2) (anc ++ [a4]) [x; y; t])
      else
        modify_x_chain fuel op cs anc ts
    | CX =>
      if negb (is_nil anc) then
        (* lines 274-297, one control moved into the gate *)
        let! (cs0, c) := vpop cs in
        let! r := modify_tket_op fuel Toffoli dagger cs0 anc (c :: ts) 0 in
        let! c' := vget (r_out r) 0 in
        Ok (MRes (r_gates r) (r_cs r ++ [c']) (r_anc r) (tl (r_out r)))
      else
        modify_x_chain fuel op cs anc ts
    | X =>
      if negb (is_nil anc) then
        (* lines 274-297, two controls moved into the gate *)
        let! (cs0, c1) := vpop cs in
        let! (cs0, c0) := vpop cs0 in
        let! r := modify_tket_op fuel Toffoli dagger cs0 anc (c0 :: c1 :: ts) 0 in
        let! c0' := vget (r_out r) 0 in
        let! c1' := vget (r_out r) 1 in
        Ok (MRes (r_gates r) (r_cs r ++ [c0'; c1']) (r_anc r) (tl (tl (r_out r))))
      else
        modify_x_chain fuel op cs anc ts
    | CRz =>
      (* lines 298-353 *)
      let pos := if dagger then - (a * / 2) else a * / 2 in
      let neg := if dagger then a * / 2 else - (a * / 2) in
      let! c := vget ts 0 in
      let! t := vget ts 1 in
      let! r1 := modify_tket_op fuel CX false cs anc [c; t] 0 in
      let! c1 := vget (r_out r1) 0 in
      let! t1 := vget (r_out r1) 1 in
      let! r2 := modify_tket_op fuel CX false (r_cs r1) (r_anc r1) [c1; t1] 0 in
      let! c2 := vget (r_out r2) 0 in
      let! t2 := vget (r_out r2) 1 in
      Ok (MRes (G Rz [t] pos :: r_gates r1 ++ G Rz [t1] neg :: r_gates r2)
               (r_cs r2) (r_anc r2) [c2; t2])
    | Rz | Y | Z =>
      (* lines 354-386 *)
      let c_op := match op with Rz => CRz | Y => CY | _ => CZ end in
      let! (cs0, c) := vpop cs in
      let! r := modify_tket_op fuel c_op dagger cs0 anc (c :: ts) a in
      let! c' := vget (r_out r) 0 in
      Ok (MRes (r_gates r) (r_cs r ++ [c']) (r_anc r) (tl (r_out r)))
    | CZ =>
      (* lines 387-394 *)
      modify_tket_op fuel CRz dagger cs anc ts 1
    | Measure | MeasureFree | QAlloc | TryQAlloc | QFree | Reset =>
      (* lines 476-481 *)
      Ok (MRes [G op ts a] cs anc ts)
    end
  end

(** tket_op_modify.rs:395-475, the arm for X, CX and Toffoli without ancilla. *)
with modify_x_chain (fuel : nat) (op : TketOp) (cs anc ts : list nat) {struct fuel}
    : outcome mres :=
  match fuel with
  | O => OutOfFuel
  | Datatypes.S fuel =>
    let gc := match op with X => 0%nat | CX => 1%nat | _ => 2%nat end in
    let! t := vget ts gc in
    let gcs := firstn gc ts in
    (* CV(c,t) *)
    let! (cs, c) := vpop cs in
    let! r1 := modify_tket_op fuel V false [c] anc [t] 0 in
    let! t := vget (r_out r1) 0 in
    (* CnX(cs,c), t as ancilla *)
    let! c := vget (r_cs r1) 0 in
    let! r2 := modify_tket_op fuel op false cs (r_anc r1 ++ [t]) (gcs ++ [c]) 0 in
    let! (anc, t) := vpop (r_anc r2) in
    let! c := vget (r_out r2) gc in
    let gcs := firstn gc (r_out r2) in
    let cs := r_cs r2 in
    (* CVdg(c,t) *)
    let! r3 := modify_tket_op fuel Vdg false [c] anc [t] 0 in
    let! t := vget (r_out r3) 0 in
    (* CnX(cs,c), t as ancilla *)
    let! c := vget (r_cs r3) 0 in
    let! r4 := modify_tket_op fuel op false cs (r_anc r3 ++ [t]) (gcs ++ [c]) 0 in
    let! (anc, t) := vpop (r_anc r4) in
    let! c := vget (r_out r4) gc in
    let gcs := firstn gc (r_out r4) in
    (* CnV(cs,t): the gate controls are pushed on the controls, c as ancilla *)
    let! r5 := modify_tket_op fuel V false (r_cs r4 ++ gcs) (anc ++ [c]) [t] 0 in
    let! (anc, c) := vpop (r_anc r5) in
    let! t := vget (r_out r5) 0 in
    (* the gate controls are popped back, last first (lines 458-460) *)
    let k := (length (r_cs r5) - gc)%nat in
    Ok (MRes (r_gates r1 ++ r_gates r2 ++ r_gates r3 ++ r_gates r4 ++ r_gates r5)
             (firstn k (r_cs r5) ++ [c]) anc (rev (skipn k (r_cs r5)) ++ [t]))
  end

(** global_phase_modify.rs:22-103. Emits the controlled global phase of [a] half turns. *)
with modify_global_phase (fuel : nat) (dagger : bool) (cs anc : list nat) (a : R) {struct fuel}
    : outcome mres :=
  match fuel with
  | O => OutOfFuel
  | Datatypes.S fuel =>
    match cs with
    | [] =>
      (* lines 29-45 *)
      Ok (MRes [GPhase (if dagger then - a else a)] cs anc [])
    | _ =>
      (* lines 47-101 *)
      let! (cs0, c) := vpop cs in
      let! p := modify_global_phase fuel false cs0 (anc ++ [c]) (a * (if dagger then - / 2 else / 2)) in
      let! (anc, c) := vpop (r_anc p) in
      let! r := modify_tket_op fuel Rz false (r_cs p) anc [c] (if dagger then - a else a) in
      let! c := vget (r_out r) 0 in
      Ok (MRes (r_gates p ++ r_gates r) (r_cs r ++ [c]) (r_anc r) [])
    end
  end.

(** global_phase_modify.rs:105-128, delete_phase: after resolution every GlobalPhase node is
    removed. *)
Definition delete_phase (gs : list gate) : list gate :=
  filter (fun g => match g with GPhase _ => false | G _ _ _ => true end) gs.

(** Entry points: modifier_resolver.rs:985 and :988 call the two functions with no ancilla.
    The recursion depth given here is shown sufficient in the proofs. *)
Definition synth_fuel (n : nat) : nat := (9 * (n + 3) + 8)%nat.
Definition synthesize (op : TketOp) (dagger : bool) (cs ts : list nat) (a : R) : outcome mres :=
  modify_tket_op (synth_fuel (length cs)) op dagger cs [] ts a.
Definition synthesize_phase (dagger : bool) (cs : list nat) (a : R) : outcome mres :=
  modify_global_phase (synth_fuel (length cs)) dagger cs [] a.

(** dfg_modify.rs:53-80 (modify_dfg_children) on a body made of gates: the operations are
    visited in a topological order, reversed under dagger, and each is synthesised with the
    current controls. [env] gives, for each wire of the old body, the qubit that the new
    body carries on it (corresp_map, filled by add_edge_from_pv). The wiring of nested
    containers and classical values is not modelled here. *)
Definition set_env (env : nat -> nat) (olds news : list nat) : nat -> nat :=
  fold_left (fun e p q => if Nat.eqb q (fst p) then snd p else e q) (combine olds news) env.

Record bres : Type := BRes { b_gates : list gate; b_cs : list nat; b_env : nat -> nat }.

Fixpoint modify_ops (dagger : bool) (cs : list nat) (env : nat -> nat) (ops : list gate)
    : outcome bres :=
  match ops with
  | [] => Ok (BRes [] cs env)
  | G op qs a :: rest =>
      let! r := synthesize op dagger cs (map env qs) a in
      let! b := modify_ops dagger (r_cs r) (set_env env qs (r_out r)) rest in
      Ok (BRes (r_gates r ++ b_gates b) (b_cs b) (b_env b))
  | GPhase a :: rest =>
      let! r := synthesize_phase dagger cs a in
      let! b := modify_ops dagger (r_cs r) env rest in
      Ok (BRes (r_gates r ++ b_gates b) (b_cs b) (b_env b))
  end.

Definition modify_body (dagger : bool) (cs : list nat) (body : list gate) : outcome bres :=
  modify_ops dagger cs (fun q => q) (if dagger then rev body else body).
