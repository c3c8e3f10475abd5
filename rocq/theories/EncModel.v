(** Model of the pytket encoder: tket/src/serialize/pytket/encoder.rs and encoder/value_tracker.rs, with the
    emitters of extension/tket.rs, bool.rs, prelude.rs and rotation.rs.

    A circuit is the list of its nodes in the order of the topological walk (encoder.rs:188-217), with
    numbered wires (EncSpec). Operations are of one of these forms:
    - [IAlloc]: QAlloc (tket.rs:82-88); [IFree]: QFree, which is skipped (tket.rs:89-93);
    - [IConst b]: a bool constant (bool.rs:77-93); [IParam e]: a float or rotation constant;
    - [ITransparent o]: LoadConstant, tuples, read, make_opaque, arithmetic on parameters;
    - [IEmit o]: everything that gives a command: gates, measurements, bool operations, barriers, and
      opaque subgraphs (encoder.rs:584-680 and 1144-1240), which are taken as one node here.
    Qubits and bits are treated by the same code up to names and are a parameter [kind] here.
    Parameters are kept as expressions instead of indices into a list that only grows
    (value_tracker.rs:312-315). Opaque subgraphs with output parameters are not modelled. Errors
    and panics are [None]. *)
From Coq Require Import List Bool Arith.
From Verif Require Import EncSpec.
Import ListNotations.

Section Encoder.
Variables Op E : Type.
Variable out_params : Op -> list E -> list E.                   (* options.output_params_fn *)
Notation circuit := (circuit Op E).
Notation node := (node Op E).
Notation command := (command Op E).
Notation value := (value E).
Variable circ : circuit.

(** value_tracker.rs:40-78, ValueTracker, and the commands: [size]: length of qubits or bits;
    [unused]: unused_qubits or unused_bits. *)
Record state : Type := { size : kind -> nat; unused : kind -> list nat; wires : list (wire * (list value * nat)); cmds : list command }.
Definition on (f : kind -> list nat) (k : kind) (l : list nat) : kind -> list nat := fun k' => if kind_eqb k' k then l else f k'.
Definition remove (i : nat) (l : list nat) : list nat := filter (fun j => negb (Nat.eqb j i)) l.
Definition insert (i : nat) (l : list nat) : list nat := if existsb (Nat.eqb i) l then l else i :: l.
Definition with_unused (st : state) (k : kind) (l : list nat) : state := {| size := size st; unused := on (unused st) k l; wires := wires st; cmds := cmds st |}.
Definition with_wires (st : state) (ws : list (wire * (list value * nat))) : state := {| size := size st; unused := unused st; wires := ws; cmds := cmds st |}.
Definition add_cmd (st : state) (c : command) : state := {| size := size st; unused := unused st; wires := wires st; cmds := cmds st ++ [c] |}.

(** BTreeSet::pop_first *)
Fixpoint smallest (l : list nat) : option nat := match l with [] => None | i :: l => match smallest l with None => Some i | Some j => Some (Nat.min i j) end end.
(** value_tracker.rs:291-307, new_qubit and new_bit *)
Definition new_unit (st : state) (k : kind) : state * nat :=
  match smallest (unused st k) with
  | Some i => (with_unused st k (remove i (unused st k)), i)
  | None => ({| size := fun k' => if kind_eqb k' k then S (size st k) else size st k'; unused := unused st; wires := wires st; cmds := cmds st |}, size st k)
  end.
Fixpoint new_units (st : state) (k : kind) (n : nat) : state * list nat :=
  match n with 0 => (st, []) | S n => let '(st, i) := new_unit st k in let '(st, l) := new_units st k n in (st, i :: l) end.

Fixpoint find_wire (l : list (wire * (list value * nat))) (w : wire) : option (list value * nat) :=
  match l with [] => None | (x, v) :: l => if Nat.eqb x w then Some v else find_wire l w end.
Definition drop_wire (l : list (wire * (list value * nat))) (w : wire) : list (wire * (list value * nat)) := filter (fun x => negb (Nat.eqb (fst x) w)) l.
(** value_tracker.rs:336-347 *)
Definition mark_used (st : state) (vs : list value) : state :=
  fold_left (fun st v => match v with Reg k i => with_unused st k (remove i (unused st k)) | Par _ => st end) vs st.
(** value_tracker.rs:405-423, unregister_wire; the wire is known to be there. *)
Definition mark_unused (st : state) (vs : list value) : state :=
  fold_left (fun st v => match v with Reg k i => with_unused st k (insert i (unused st k)) | Par _ => st end) vs st.
(** value_tracker.rs:328-366, register_wire *)
Definition register_wire (st : state) (w : wire) (vs : list value) : option state :=
  let st := mark_used st vs in
  match find_wire (wires st) w with
  | Some _ => None                                            (* WireAlreadyHasValues *)
  | None => let n := uses circ w in if Nat.eqb n 0 then Some (mark_unused st vs) else Some (with_wires st ((w, (vs, n)) :: wires st))
  end.
(** value_tracker.rs:377-387, wire_values; encoder.rs:299-320, get_wire_values *)
Definition wire_values (st : state) (w : wire) : option (state * list value) :=
  match find_wire (wires st) w with
  | None => None                                              (* WireHasNoValues *)
  | Some (vs, n) => if Nat.eqb n 1 then Some (mark_unused (with_wires st (drop_wire (wires st) w)) vs, vs)
                    else Some (with_wires st ((w, (vs, n - 1)) :: drop_wire (wires st) w), vs)
  end.
(** encoder.rs:344-405, get_input_values *)
Fixpoint input_values (st : state) (ws : list wire) : option (state * list value) :=
  match ws with
  | [] => Some (st, [])
  | w :: ws =>
      match wire_values st w with
      | None => None
      | Some (st, vs) => match input_values st ws with None => None | Some (st, vs') => Some (st, vs ++ vs') end
      end
  end.

(** encoder.rs:1036-1120, register_node_outputs: the loop over the outputs; [rq], [rb]: what is left of
    the inputs to take over. Returns the new registers. *)
Fixpoint register_outputs (st : state) (rq rb : list nat) (outs : list (wire * count)) : option (state * list nat * list nat) :=
  match outs with
  | [] => Some (st, [], [])
  | (w, c) :: outs =>
      let '(st, qn) := new_units st Qb (cq c - length rq) in
      let '(st, bn) := new_units st Bt (cb c - length rb) in
      match register_wire st w (map (Reg Qb) (firstn (cq c) rq ++ qn) ++ map (Reg Bt) (firstn (cb c) rb ++ bn)) with
      | None => None
      | Some st =>
          match register_outputs st (skipn (cq c) rq) (skipn (cb c) rb) outs with
          | None => None
          | Some (st, qn', bn') => Some (st, qn ++ qn', bn ++ bn')
          end
      end
  end.
(** encoder.rs:448-489, emit_node_command. The default is to take over qubits and bits in order
    (encoder.rs:1049-1056). Output parameters are an error (encoder.rs:1068-1076). *)
Definition emit_node (st : state) (o : Op) (ws : list wire) (outs : list (wire * count)) : option state :=
  match input_values st ws with
  | None => None
  | Some (st, vs) =>
      if Nat.eqb (total_p outs) 0 then
        match register_outputs st (regs_of Qb vs) (regs_of Bt vs) outs with
        | None => None
        | Some (st, qn, bn) => Some (add_cmd st (COp o (regs_of Qb vs) qn (regs_of Bt vs) bn (pars_of vs)))
        end
      else None
  end.
(** encoder.rs:513-573, emit_transparent_node *)
Fixpoint forward (st : state) (qs bs : list nat) (ps : list E) (outs : list (wire * count)) : option state :=
  match outs with
  | [] => Some st
  | (w, c) :: outs =>
      match register_wire st w (map (Reg Qb) (firstn (cq c) qs) ++ map (Reg Bt) (firstn (cb c) bs) ++ map Par (firstn (cp c) ps)) with
      | None => None
      | Some st => forward st (skipn (cq c) qs) (skipn (cb c) bs) (skipn (cp c) ps) outs
      end
  end.
Definition emit_transparent (st : state) (o : Op) (ws : list wire) (outs : list (wire * count)) : option state :=
  match input_values st ws with
  | None => None
  | Some (st, vs) =>
      let ps := out_params o (pars_of vs) in
      if Nat.eqb (length (regs_of Qb vs)) (total Qb outs) && Nat.eqb (length (regs_of Bt vs)) (total Bt outs) && Nat.eqb (length ps) (total_p outs)
      then forward st (regs_of Qb vs) (regs_of Bt vs) ps outs else None
  end.

(** encoder.rs:856-945, try_encode_node, and the emitters. *)
Definition encode_node (st : state) (n : node) : option state :=
  match what n, nout n with
  | IAlloc, [(w, _)] => let '(st, i) := new_unit st Qb in register_wire st w [Reg Qb i]
  | IFree, _ => Some st
  | IConst b, [(w, _)] =>
      let '(st, i) := new_unit st Bt in
      register_wire (if b then add_cmd st (CSet i) else st) w [Reg Bt i]
  | IParam e, [(w, _)] => register_wire st w [Par e]
  | ITransparent o, outs => emit_transparent st o (nin n) outs
  | IEmit o, outs => emit_node st o (nin n) outs
  | _, _ => None
  end.
Fixpoint encode_nodes (st : state) (ns : list node) : option state :=
  match ns with [] => Some st | n :: ns => match encode_node st n with None => None | Some st => encode_nodes st ns end end.

(** value_tracker.rs:211-284, new: the inputs; [params]: names for the input parameters. *)
Fixpoint register_inputs (st : state) (params : list E) (ins : list (wire * count)) : option (state * list (list value)) :=
  match ins with
  | [] => Some (st, [])
  | (w, c) :: ins =>
      let '(st, q) := new_units st Qb (cq c) in
      let '(st, b) := new_units st Bt (cb c) in
      let vs := map (Reg Qb) q ++ map (Reg Bt) b ++ map Par (firstn (cp c) params) in
      match register_wire st w vs with
      | None => None
      | Some st => match register_inputs st (skipn (cp c) params) ins with None => None | Some (st, l) => Some (st, vs :: l) end
      end
  end.
(** value_tracker.rs:216-234: [nq] and [nb] registers are known from the metadata. *)
Definition start (nq nb : nat) : state :=
  {| size := fun k => match k with Qb => nq | Bt => nb end; unused := fun k => seq 0 (match k with Qb => nq | Bt => nb end); wires := []; cmds := [] |}.
(** value_tracker.rs:444-494, finish: what the outputs carry. *)
Fixpoint output_values (st : state) (ws : list wire) : option (list (list value)) :=
  match ws with
  | [] => Some []
  | w :: ws => match find_wire (wires st) w, output_values st ws with Some (vs, _), Some l => Some (vs :: l) | _, _ => None end
  end.
(** The commands, what the inputs and what the outputs carry. *)
Record encoded : Type := { commands : list command; in_values : list (list value); out_values : list (list value) }.
Definition encode (nq nb : nat) (params : list E) : option encoded :=
  match register_inputs (start nq nb) params (inputs circ) with
  | None => None
  | Some (st, i) =>
      match encode_nodes st (nodes circ) with
      | None => None
      | Some st => match output_values st (outputs circ) with Some o => Some {| commands := cmds st; in_values := i; out_values := o |} | None => None end
      end
  end.

(** ** Unsupported operations
    Above, an unsupported operation is encoded when the walk meets it. The code only records it
    (encoder.rs:940-941) and emits it when one of its output wires is asked for (encoder.rs:304-318), or at the
    end (encoder.rs:226-243). Here each unsupported node is a subgraph of its own; the code joins connected
    ones (unsupported_tracker.rs). [ps]: the recorded nodes. *)
Variable opaque : Op -> bool.
Definition makes (w : wire) (n : node) : bool := existsb (fun x => Nat.eqb (fst x) w) (nout n).
(** encoder.rs:299-321, get_wire_values, and 584-690, emit_unsupported. Wires without values are skipped
    in the code (encoder.rs:610-613) and an error here. *)
Fixpoint get_wire (fuel : nat) (ps : list node) (st : state) (w : wire) {struct fuel} : option (list node * state * list value) :=
  match find_wire (wires st) w with
  | Some _ => match wire_values st w with Some (st, vs) => Some (ps, st, vs) | None => None end
  | None =>
      match fuel with
      | 0 => None
      | S fuel =>
          match find (makes w) ps with
          | None => None                                      (* WireHasNoValues *)
          | Some n =>
              match what n with
              | IEmit o =>
                  let fix go (ps : list node) (st : state) (ws : list wire) : option (list node * state * list value) :=
                    match ws with
                    | [] => Some (ps, st, [])
                    | w :: ws =>
                        match get_wire fuel ps st w with
                        | None => None
                        | Some (ps, st, vs) => match go ps st ws with None => None | Some (ps, st, vs') => Some (ps, st, vs ++ vs') end
                        end
                    end in
                  match go (filter (fun m => negb (makes w m)) ps) st (nin n) with
                  | None => None
                  | Some (ps, st, vs) =>
                      match register_outputs st (regs_of Qb vs) (regs_of Bt vs) (nout n) with
                      | None => None
                      | Some (st, qn, bn) =>
                          match wire_values (add_cmd st (COp o (regs_of Qb vs) qn (regs_of Bt vs) bn (pars_of vs))) w with
                          | None => None
                          | Some (st, vs) => Some (ps, st, vs)
                          end
                      end
                  end
              | _ => None
              end
          end
      end
  end.
Fixpoint get_wires (fuel : nat) (ps : list node) (st : state) (ws : list wire) : option (list node * state * list value) :=
  match ws with
  | [] => Some (ps, st, [])
  | w :: ws =>
      match get_wire fuel ps st w with
      | None => None
      | Some (ps, st, vs) => match get_wires fuel ps st ws with None => None | Some (ps, st, vs') => Some (ps, st, vs ++ vs') end
      end
  end.
(** encoder.rs:856-945, for [ITransparent] and [IEmit]; the others do not read wires. *)
Definition encode_node_lazy (fuel : nat) (ps : list node) (st : state) (n : node) : option (list node * state) :=
  match what n with
  | IEmit o =>
      if opaque o then Some (ps ++ [n], st)
      else
        match get_wires fuel ps st (nin n) with
        | None => None
        | Some (ps, st, vs) =>
            if Nat.eqb (total_p (nout n)) 0 then
              match register_outputs st (regs_of Qb vs) (regs_of Bt vs) (nout n) with
              | None => None
              | Some (st, qn, bn) => Some (ps, add_cmd st (COp o (regs_of Qb vs) qn (regs_of Bt vs) bn (pars_of vs)))
              end
            else None
        end
  | ITransparent o =>
      match get_wires fuel ps st (nin n) with
      | None => None
      | Some (ps, st, vs) =>
          let es := out_params o (pars_of vs) in
          if Nat.eqb (length (regs_of Qb vs)) (total Qb (nout n)) && Nat.eqb (length (regs_of Bt vs)) (total Bt (nout n)) && Nat.eqb (length es) (total_p (nout n))
          then match forward st (regs_of Qb vs) (regs_of Bt vs) es (nout n) with Some st => Some (ps, st) | None => None end
          else None
      end
  | _ => match encode_node st n with Some st => Some (ps, st) | None => None end
  end.
Fixpoint encode_nodes_lazy (fuel : nat) (ps : list node) (st : state) (ns : list node) : option (list node * state) :=
  match ns with [] => Some (ps, st) | n :: ns => match encode_node_lazy fuel ps st n with None => None | Some (ps, st) => encode_nodes_lazy fuel ps st ns end end.
(** Without the subgraphs that are left at the end: [None] if there are any. *)
Definition encode_lazy (nq nb : nat) (params : list E) : option encoded :=
  match register_inputs (start nq nb) params (inputs circ) with
  | None => None
  | Some (st, i) =>
      match encode_nodes_lazy (length (nodes circ)) [] st (nodes circ) with
      | Some ([], st) => match output_values st (outputs circ) with Some o => Some {| commands := cmds st; in_values := i; out_values := o |} | None => None end
      | _ => None
      end
  end.
End Encoder.
Arguments size {Op E}. Arguments unused {Op E}. Arguments wires {Op E}. Arguments cmds {Op E}. Arguments with_unused {Op E}. Arguments with_wires {Op E}. Arguments add_cmd {Op E}.
Arguments new_unit {Op E}. Arguments new_units {Op E}. Arguments find_wire {E}. Arguments drop_wire {E}. Arguments mark_used {Op E}. Arguments mark_unused {Op E}.
Arguments register_wire {Op E}. Arguments wire_values {Op E}. Arguments input_values {Op E}. Arguments register_outputs {Op E}. Arguments emit_node {Op E}. Arguments forward {Op E}.
Arguments emit_transparent {Op E}. Arguments encode_node {Op E}. Arguments encode_nodes {Op E}. Arguments register_inputs {Op E}. Arguments start {Op E}. Arguments output_values {Op E}.
Arguments commands {Op E}. Arguments in_values {Op E}. Arguments out_values {Op E}. Arguments encode {Op E}.
Arguments get_wire {Op E}. Arguments get_wires {Op E}. Arguments encode_node_lazy {Op E}. Arguments encode_nodes_lazy {Op E}. Arguments encode_lazy {Op E}.
