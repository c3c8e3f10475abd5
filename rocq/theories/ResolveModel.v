(** Model of the bookkeeping of the modifier resolver: chains of modifiers and their flags,
    modified signatures, packing and unpacking of control qubits, the correspondence of the
    ports of old and new nodes, and the links from calls to callees.

    Sources: tket/src/modifier.rs, tket/src/modifier/modifier_resolver.rs,
    tket/src/modifier/modifier_resolver/{dfg_modify,call_modify}.rs.
    Paths below are relative to tket/src/modifier/. *)
From Coq Require Import List Arith Bool NArith.
Import ListNotations.

(** ** Chains of modifiers *)

(** tket/src/extension/modifier.rs, enum Modifier; the natural number is the type argument
    of a control modifier. *)
Inductive modifier := Control (n : nat) | Dagger | Power.

(** tket/src/modifier.rs:27-38, struct CombinedModifier. *)
Record combined := {
  control : nat;
  accum_ctrl : list nat;
  dagger : bool;
  power : bool
}.

(** tket/src/modifier.rs:27, derive(Default). *)
Definition no_modifier := {| control := 0; accum_ctrl := []; dagger := false; power := false |}.

(** tket/src/modifier.rs:42-54, CombinedModifier::push (operations that are no modifiers,
    which leave the value alone, are never pushed and are left out). *)
Definition push (c : combined) (m : modifier) : combined :=
  match m with
  | Control n => {| control := control c + n; accum_ctrl := accum_ctrl c ++ [n];
                    dagger := dagger c; power := power c |}
  | Dagger => {| control := control c; accum_ctrl := accum_ctrl c;
                 dagger := negb (dagger c); power := power c |}
  | Power => {| control := control c; accum_ctrl := accum_ctrl c;
                dagger := dagger c; power := negb (power c) |}
  end.

(** modifier_resolver/call_modify.rs:109-135, trace_modifiers_chain: the modifiers are pushed
    on the current ones from the outermost (the one the caller uses) to the one that takes
    the loaded function. *)
Definition trace_chain (c : combined) (chain : list modifier) : combined := fold_left push chain c.

(** tket/src/modifier.rs:57-62, struct ModifierFlags. *)
Record flags := { f_control : bool; f_dagger : bool; f_power : bool }.

(** tket/src/modifier.rs:65-73, ModifierFlags::from_metadata ([None]: no metadata, or not
    an unsigned number). *)
Definition from_metadata (num : option N) : option flags :=
  match num with
  | None => None
  | Some num => Some {| f_dagger := negb (N.eqb (N.land num 1) 0);
                        f_control := negb (N.eqb (N.land num 2) 0);
                        f_power := negb (N.eqb (N.land num 4) 0) |}
  end.

(** tket/src/modifier.rs:75-87, ModifierFlags::set_metadata. *)
Definition set_metadata (f : flags) : N :=
  let num := 0%N in
  let num := if f_dagger f then N.lor num 1 else num in
  let num := if f_control f then N.lor num 2 else num in
  if f_power f then N.lor num 4 else num.

(** tket/src/modifier.rs:89-93, ModifierFlags::satisfies. *)
Definition satisfies (f : flags) (c : combined) : bool :=
  (Nat.eqb (control c) 0 || f_control f) && (negb (dagger c) || f_dagger f)
  && (negb (power c) || f_power f).

(** tket/src/modifier.rs:95-101, ModifierFlags::from_combined. *)
Definition from_combined (c : combined) : flags :=
  {| f_control := Nat.ltb 0 (control c); f_dagger := dagger c; f_power := power c |}.

(** tket/src/modifier.rs:103-112, ModifierFlags::or. *)
Definition flags_or (f : flags) (g : option flags) : flags :=
  match g with
  | None => f
  | Some g => {| f_control := f_control f || f_control g; f_dagger := f_dagger f || f_dagger g;
                 f_power := f_power f || f_power g |}
  end.

(** modifier_resolver/dfg_modify.rs:351-357, modify_fn: the metadata of the new function. *)
Definition new_metadata (c : combined) (old : option N) : N :=
  set_metadata (flags_or (from_combined c) (from_metadata old)).

(** ** Control qubits *)

(** modifier_resolver.rs:303-312, 485-497, pop_control, push_control: the wires of the
    current control qubits and their number kept apart from them. *)
Section Controls.
Variable wire : Type.

Definition pop_control (s : combined * list wire) : option (wire * (combined * list wire)) :=
  match rev (snd s) with
  | [] => None
  | w :: r => Some (w, ({| control := control (fst s) - 1; accum_ctrl := accum_ctrl (fst s);
                           dagger := dagger (fst s); power := power (fst s) |}, rev r))
  end.

Definition push_control (s : combined * list wire) (w : wire) : combined * list wire :=
  ({| control := control (fst s) + 1; accum_ctrl := accum_ctrl (fst s);
      dagger := dagger (fst s); power := power (fst s) |}, snd s ++ [w]).

(** modifier_resolver/dfg_modify.rs:266-282, pack_controls: one array for each size, made of
    the next [size] control wires; [None] when the slice is out of range (panic). *)
Fixpoint pack_controls (sizes : list nat) (controls : list wire) : option (list (list wire)) :=
  match sizes with
  | [] => Some []
  | n :: r =>
      if Nat.ltb (length controls) n then None
      else match pack_controls r (skipn n controls) with
           | None => None
           | Some l => Some (firstn n controls :: l)
           end
  end.

(** modifier_resolver/dfg_modify.rs:207-219, unpack_controls: for each size the next wire is
    unpacked as an array of that size.  The wires are given as arrays; [None] when there is
    no next wire (panic) or the array has another size (an invalid edge, which the
    validation at the end of resolve_modifier_with_entrypoints refuses). *)
Fixpoint unpack_controls (sizes : list nat) (arrays : list (list wire)) : option (list wire) :=
  match sizes, arrays with
  | [], _ => Some []
  | _ :: _, [] => None
  | n :: r, a :: arrays =>
      if Nat.eqb (length a) n then
        match unpack_controls r arrays with None => None | Some l => Some (a ++ l) end
      else None
  end.
End Controls.

(** ** Signatures *)

(** Types: qubits, arrays of qubits, and anything else. *)
Inductive type := Qubit | QArray (n : nat) | Other (n : nat).

Definition row := list type.

(** modifier_resolver.rs:699-713, modify_signature for one of the two rows. *)
Definition modify_row (c : combined) (flatten : bool) (r : row) : row :=
  if flatten then repeat Qubit (control c) ++ r
  else fold_left (fun r n => QArray n :: r) (accum_ctrl c) r.

(** control.rs, dagger.rs and power.rs, [signature]s of the modifiers: a control modifier puts an
    array of [n] qubits before the inputs and before the outputs of the function it is
    given; the others keep them.  The chain is listed from the outermost modifier. *)
Definition declared_row (chain : list modifier) (r : row) : row :=
  fold_right (fun m r => match m with Control n => QArray n :: r | _ => r end) r chain.

(** modifier_resolver/dfg_modify.rs:207-219 with 190-192: the arrays which the body of the
    new function unpacks, checked against the types of the inputs of the new function. *)
Fixpoint unpack_types (sizes : list nat) (inputs : row) : bool :=
  match sizes, inputs with
  | [], _ => true
  | _ :: _, [] => false
  | n :: r, QArray m :: inputs => Nat.eqb m n && unpack_types r inputs
  | _ :: _, _ :: _ => false
  end.

(** modifier_resolver/call_modify.rs:205-212, modify_indirect_call: type of the function that
    the new CallIndirect expects, given the modifiers that were current around it and the
    signature of the old indirect call ... *)
Definition indirect_expected (outer : combined) (call_row : row) : row := modify_row outer false call_row.

(** ... and type of the function that the new LoadFunction loads (call_modify.rs:199-201),
    given the chain between the old LoadFunction and the old call. *)
Definition indirect_loaded (outer : combined) (inner : list modifier) (load_row : row) : row :=
  modify_row (trace_chain outer inner) false load_row.

(** ** Correspondence of ports *)

Inductive dir := Incoming | Outgoing.

(** modifier_resolver.rs:134, DirWire, of a node that is understood from the context. *)
Definition port := (dir * nat)%type.

(** modifier_resolver.rs:235-255, PortExt::shift. *)
Definition shift (p : port) (n : nat) : port := (fst p, snd p + n).

(** modifier_resolver.rs:151-158, DirWire::reverse. *)
Definition reverse (p : port) : port := (match fst p with Incoming => Outgoing | Outgoing => Incoming end, snd p).

(** modifier_resolver.rs:193-210, connect: source and target of the new edge, or an error. *)
Definition connect (a b : port) : option (port * port) :=
  match fst a, fst b with
  | Outgoing, Incoming => Some (a, b)
  | Incoming, Outgoing => Some (b, a)
  | _, _ => None
  end.

Definition port_eqb (a b : port) : bool :=
  match fst a, fst b with Incoming, Incoming | Outgoing, Outgoing => Nat.eqb (snd a) (snd b) | _, _ => false end.

(** modifier_resolver.rs:500-516, map_insert: an error when the old wire has an entry. *)
Definition map_insert (old new : port) (m : list (port * port)) : option (list (port * port)) :=
  if existsb (fun e => port_eqb (fst e) old) m then None else Some (m ++ [(old, new)]).

Section Wiring.
Variable ty : Type.
(** TypeUnpacker::contains_element_type of the resolver's [qubit_finder]. *)
Variable quantum : ty -> bool.
Variable is_dagger : bool.

Record cursor := {
  old_in : port; old_out : port; new_in : port; new_out : port;
  corresp : list (port * port)
}.

(** modifier_resolver.rs:856-864, the first inner loop of wire_inout. *)
Fixpoint classical_ins (l : list ty) (w : cursor) : option (list ty * cursor) :=
  match l with
  | [] => Some ([], w)
  | t :: r =>
      if quantum t then Some (l, w)
      else match map_insert (old_in w) (new_in w) (corresp w) with
           | None => None
           | Some m => classical_ins r
               {| old_in := shift (old_in w) 1; old_out := old_out w;
                  new_in := shift (new_in w) 1; new_out := new_out w; corresp := m |}
           end
  end.

(** modifier_resolver.rs:867-875, the second inner loop. *)
Fixpoint classical_outs (l : list ty) (w : cursor) : option (list ty * cursor) :=
  match l with
  | [] => Some ([], w)
  | t :: r =>
      if quantum t then Some (l, w)
      else match map_insert (old_out w) (new_out w) (corresp w) with
           | None => None
           | Some m => classical_outs r
               {| old_in := old_in w; old_out := shift (old_out w) 1;
                  new_in := new_in w; new_out := shift (new_out w) 1; corresp := m |}
           end
  end.

(** modifier_resolver.rs:878-894, the third inner loop. *)
Fixpoint quantum_ins (l : list ty) (w : cursor) : option (list ty * cursor) :=
  match l with
  | [] => Some ([], w)
  | t :: r =>
      if negb (quantum t) then Some (l, w)
      else
        let new := if negb is_dagger then new_in w else new_out w in
        match map_insert (old_in w) new (corresp w) with
        | None => None
        | Some m => quantum_ins r
            {| old_in := shift (old_in w) 1; old_out := old_out w;
               new_in := if negb is_dagger then shift (new_in w) 1 else new_in w;
               new_out := if negb is_dagger then new_out w else shift (new_out w) 1;
               corresp := m |}
        end
  end.

(** modifier_resolver.rs:895-911, the fourth inner loop. *)
Fixpoint quantum_outs (l : list ty) (w : cursor) : option (list ty * cursor) :=
  match l with
  | [] => Some ([], w)
  | t :: r =>
      if negb (quantum t) then Some (l, w)
      else
        let new := if negb is_dagger then new_out w else new_in w in
        match map_insert (old_out w) new (corresp w) with
        | None => None
        | Some m => quantum_outs r
            {| old_in := old_in w; old_out := shift (old_out w) 1;
               new_in := if negb is_dagger then new_in w else shift (new_in w) 1;
               new_out := if negb is_dagger then shift (new_out w) 1 else new_out w;
               corresp := m |}
        end
  end.

(** modifier_resolver.rs:854-918, the outer loop; [None] also when the fuel runs out. *)
Fixpoint wire_loop (fuel : nat) (ins outs : list ty) (w : cursor) : option cursor :=
  match fuel with
  | 0 => None
  | S fuel =>
      match classical_ins ins w with
      | None => None
      | Some (ins, w) =>
        match classical_outs outs w with
        | None => None
        | Some (outs, w) =>
          match quantum_ins ins w with
          | None => None
          | Some (ins, w) =>
            match quantum_outs outs w with
            | None => None
            | Some (outs, w) =>
                match ins, outs with
                | [], [] => Some w
                | _, _ => wire_loop fuel ins outs w
                end
            end
          end
        end
      end
  end.

(** modifier_resolver.rs:837-921, wire_inout, with an empty correspondence for the two nodes
    at the start.  The fuel is that of one round for each type. *)
Definition wire_inout (ins outs : list ty) (input_offset output_offset new_offset : nat)
  : option (list (port * port)) :=
  match wire_loop (S (length ins + length outs)) ins outs
          {| old_in := (Incoming, input_offset); old_out := (Outgoing, output_offset);
             new_in := (Incoming, input_offset + new_offset);
             new_out := (Outgoing, output_offset + new_offset); corresp := [] |} with
  | None => None
  | Some w => Some (corresp w)
  end.

(** The wiring of the node itself: modifier_resolver.rs:819-835, wire_node_inout. *)
Definition wire_node_inout := wire_inout.

(** The wiring of the input and output nodes inside: dfg_modify.rs:82-108, 131-152 and
    578-590.  The old output node has the input ports of the correspondence, and the old
    input node its output ports, so the rows change places. *)
Definition wire_body (ins outs : list ty) (input_offset output_offset new_offset : nat)
  : option (list (port * port)) :=
  wire_inout outs ins output_offset input_offset new_offset.

(** The wiring of a nested DFG (dfg_modify.rs:441-461), CFG (modifier_resolver.rs:1033-1057)
    or Call (call_modify.rs:42-68): the rows are those of the modified signature, with the
    types of the controls in front. *)
Definition wire_nested (controls ins outs : list ty) : option (list (port * port)) :=
  wire_node_inout (controls ++ ins) (controls ++ outs) 0 0 (length controls).
End Wiring.

Arguments wire_inout {ty}.
Arguments wire_node_inout {ty}.
Arguments wire_body {ty}.
Arguments wire_nested {ty}.

(** ** Loops and conditionals *)

(** dfg_modify.rs:492-500, input row of the new tail loop. *)
Definition loop_inputs (just_inputs rest : row) (controls : nat) : row :=
  just_inputs ++ (rest ++ repeat Qubit controls).

(** dfg_modify.rs:505-514, input port of the new loop for a control. *)
Definition loop_control_port (just_inputs : row) (i : nat) : nat := i + length just_inputs.

(** dfg_modify.rs:515-522, input port of the new loop for an input port of the old one. *)
Definition loop_port (just_inputs : row) (controls i : nat) : nat :=
  if Nat.ltb i (length just_inputs) then i else i + controls.

(** dfg_modify.rs:545-551, input row of the new conditional after its tag, and port of the
    control (602-607). *)
Definition cond_inputs (other_inputs : row) (controls : nat) : row := repeat Qubit controls ++ other_inputs.
Definition cond_control_port (i : nat) : nat := i + 1.

(** ** Links from calls to callees *)

(** Contents of a region of the new function: calls (or loads) of a function, regions that
    are built apart and then inserted (DFG, CFG, tail loop, conditional), other nodes. *)
Inductive item := Call (callee : nat) | Region (body : list item) | Plain.

(** A builder: the number of its nodes, numbered from 0, and the [call_map] of the resolver
    (modifier_resolver.rs:318), which maps a callee to the node that uses it. *)
Record builder := { nodes : nat; call_map : list (nat * nat) }.

(** HashMap::insert. *)
Definition call_insert (m : list (nat * nat)) (callee node : nat) : list (nat * nat) :=
  (callee, node) :: filter (fun e => negb (Nat.eqb (fst e) callee)) m.

(** dfg_modify.rs:626-637, update_call_map: entries whose node is not in the inserted graph
    are left out.  Insertion of a graph of [n] nodes into one of [base] nodes sends node i
    to base + i. *)
Definition update_call_map (m : list (nat * nat)) (n base : nat) : list (nat * nat) :=
  flat_map (fun e => if Nat.ltb (snd e) n then [(fst e, base + snd e)] else []) m.

(** modifier_resolver.rs:717-755 (modify_op) for what concerns calls: call_modify.rs:37-39
    and 50-51 insert the new node; a region is built by its own builder, whose graph has the
    region's node, its input and its output at the start, with the same call map, and is
    then inserted (dfg_modify.rs:420-432). *)
Fixpoint place (it : item) (b : builder) : builder :=
  match it with
  | Call f => {| nodes := S (nodes b); call_map := call_insert (call_map b) f (nodes b) |}
  | Plain => {| nodes := S (nodes b); call_map := call_map b |}
  | Region body =>
      let inner := fold_left (fun b it => place it b) body {| nodes := 3; call_map := call_map b |} in
      {| nodes := nodes b + nodes inner;
         call_map := update_call_map (call_map inner) (nodes inner) (nodes b) |}
  end.

(** dfg_modify.rs:317-349, modify_fn: callees that are linked to nodes of the new function,
    inserted into a graph of [base] nodes. *)
Definition link_calls (body : list item) (base : nat) : list (nat * nat) :=
  let b := fold_left (fun b it => place it b) body {| nodes := 3; call_map := [] |} in
  update_call_map (call_map b) (nodes b) base.
