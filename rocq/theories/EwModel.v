(** Model of the removal of empty wires (tket/src/circuit.rs, remove_empty_wire) and of its use in the ECC
    rewriter (tket/src/rewrite/ecc_rewriter.rs), over the circuits of PatSpec.v. *)
From Coq Require Import List Bool Arith.
From Verif Require Import PatSpec PatModel EccModel.
Import ListNotations.

Section Wires.
Variable ain : optype -> nat.
Notation circuit := (circuit optype).
(** ecc_rewriter.rs:277-300, empty_wires: the ports of the input node with at most one link, to the output node or to nothing. The ports
    of order edges have no type and are not in [c_inputs]. *)
Definition empty_wires (c : circuit) : list nat :=
  filter (fun p => match linked_ports ain c HIn (POut p) with [] => true | [(HOut, _)] => true | _ => false end) (seq 0 (c_inputs c)).

(** The errors (circuit.rs:508-533, CircuitMutError); [OutOfBounds] is the panic of [types.remove] in update_signature (circuit.rs:584). *)
Inductive mut_error : Type := InvalidPortOffset | DeleteNonEmptyWire | OutOfBounds.
(** The body of the loop of circuit.rs:536-561, shift_ports, at the input node: all links of port [p] go to port [q]. *)
Definition move_source (p q : nat) (w : source) : source := match w with Inp k => if Nat.eqb k p then Inp q else w | Out _ _ => w end.
Definition move_links (c : circuit) (p q : nat) : circuit :=
  {| c_inputs := c_inputs c; c_nodes := c_nodes c; c_src := fun n k => move_source p q (c_src c n k); c_outs := map (move_source p q) (c_outs c) |}.
(** shift_ports (circuit.rs:536-561) at the input node: while port [p] is moved, the free port is [p - 1]. *)
Definition shift_inputs (c : circuit) (free max : nat) : circuit := fold_left (fun c p => move_links c p (p - 1)) (seq (free + 1) (max - (free + 1))) c.
(** shift_ports at the output node: the link of port [p] goes to port [p - 1]. An output port has one link. *)
Fixpoint set_nth {A} (i : nat) (x : A) (l : list A) : list A := match l, i with [], _ => [] | _ :: l, 0 => x :: l | y :: l, S i => y :: set_nth i x l end.
Definition shift_outputs (l : list source) (free max : nat) : list source :=
  fold_left (fun l p => match nth_error l p with Some w => set_nth (p - 1) w l | None => l end) (seq (free + 1) (max - (free + 1))) l.
(** circuit.rs:417-469, remove_empty_wire. The signatures (update_signature, circuit.rs:569-645) are not kept here: they are the types of the
    ports that stay, in their order. The circuit is a function or a dataflow graph; blocks and loops are not implemented there. The input node
    has one more port, for order edges ([num_outputs] counts it; see the filter in empty_wires): its offset passes the first check and there is
    no type to remove. It has no links here. The disconnected link at the output port is in [c_outs] until it is overwritten or cut. *)
Definition remove_empty_wire (c : circuit) (input_port : nat) : circuit + mut_error :=
  if Nat.leb (c_inputs c) input_port then inr (if Nat.eqb (c_inputs c) input_port then OutOfBounds else InvalidPortOffset)
  else
    let cut (link : option nat) :=
      let c1 := shift_inputs c input_port (c_inputs c) in
      inl {| c_inputs := c_inputs c1 - 1; c_nodes := c_nodes c1; c_src := c_src c1;
             c_outs := match link with Some q => removelast (shift_outputs (c_outs c1) q (length (c_outs c1))) | None => c_outs c1 end |} in
    match linked_ports ain c HIn (POut input_port) with
    | [] => cut None
    | [(HOut, PIn q)] => cut (Some q)
    | _ => inr DeleteNonEmptyWire
    end.
(** ecc_rewriter.rs:204-206 and 266-268: the wires are removed from the last to the first; the error is unwrapped: None is a panic. *)
Definition remove_wires (c : circuit) (ws : list nat) : option circuit :=
  fold_left (fun c w => match c with Some c => match remove_empty_wire c w with inl c => Some c | inr _ => None end | None => None end) (rev ws) (Some c).

(** ** The rewriter *)
Variable lin : optype -> nat -> bool.
Variable typed : optype -> nat -> bool.
Variable commands : circuit -> list (nat * optype).     (* Circuit::commands, see CmdModel.v *)
(** ecc_rewriter.rs:257-276, get_patterns, for one circuit: the circuit without its empty wires, and its pattern. A panic of remove_empty_wire
    is None here as well; the theorems exclude it. *)
Definition pattern_of (c : circuit) : option (circuit * pattern) :=
  match remove_wires c (empty_wires c) with
  | Some pc => match try_from_circuit ain lin typed pc (commands pc) with inl p => Some (pc, p) | inr _ => None end
  | None => None
  end.
Definition ecc_rewriter := rewriter circuit (circuit * pattern).
Definition from_classes (es : list (eqclass circuit)) : option ecc_rewriter := from_eccs circuit (circuit * pattern) pattern_of empty_wires es.
(** hugr's SimpleReplacement compares the numbers of inputs and outputs of the subgraph and the replacement. *)
Definition same_arity (p r : circuit) : bool := Nat.eqb (c_inputs p) (c_inputs r) && Nat.eqb (length (c_outs p)) (length (c_outs r)).
(** ecc_rewriter.rs:196-213, get_rewrites, for one pattern [i], one match of it (see PatModel.v) and one target [t]: [inr tt] is the panic of the
    unwrap or of expect("invalid replacement"). *)
Definition get_rewrite (w : ecc_rewriter) (c : circuit) (i : nat) (t : circuit) (m : bimap) (off : nat) : circuit + unit :=
  match nth_error (rows _ _ w) i with
  | Some (pc, p, ws, _) =>
      match remove_wires t ws with
      | Some repl => if same_arity pc repl then inl (rewrite_match c pc repl p m off) else inr tt
      | None => inr tt
      end
  | None => inr tt
  end.
End Wires.
