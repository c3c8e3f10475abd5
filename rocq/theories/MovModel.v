(** Model of putting a circuit back into the place it was encoded from, as far as unsupported operations are concerned:
    tket/src/serialize/pytket/opaque/subgraph.rs:48-128 (OpaqueSubgraph::try_from_nodes),
    tket/src/serialize/pytket/decoder/subgraph.rs:57-230 (insert_external_subgraph, rewire_external_subgraph_inputs,
    rewire_external_subgraph_outputs), tket/src/serialize/pytket/circuit.rs:159-234 (reassemble_inplace) and
    tket/src/serialize/pytket/decoder.rs:465-506 (run_decoder).

    A hugr is the parents of its nodes and its links.  The first ports of a node are those of its signature (values), then
    come the ports for constants, functions and the order of effects.  The wires that the decoder's tracker finds
    (find_typed_wire, see DecModel) are given, and so are the nodes and links it makes for other commands; these nodes are
    in the region that is decoded from the start, without links.  Errors are not modelled here. *)
From Coq Require Import List Arith Bool.
Import ListNotations.

(** A node and the offset of a port; a link from an output port to an input port. *)
Definition port := (nat * nat)%type.
Definition link := (port * port)%type.

(** Types of ports, extension.rs type_to_pytket: registers, parameters, or unsupported. *)
Inductive kind := Reg | Par | Uns.

Record hugr := { parent : nat -> option nat; links : list link }.

Definition same (p q : port) : bool := Nat.eqb (fst p) (fst q) && Nat.eqb (snd p) (snd q).

(** HugrView::linked_outputs of an input port, and linked_inputs of an output port (hugr, external). *)
Definition linked_outputs (h : hugr) (t : port) : list port := map fst (filter (fun e => same (snd e) t) (links h)).
Definition linked_inputs (h : hugr) (s : port) : list port := map snd (filter (fun e => same (fst e) s) (links h)).

(** HugrMut::connect, disconnect and set_parent (hugr, external): [disconnect] takes away all links of the port. *)
Definition connect (h : hugr) (s t : port) : hugr := {| parent := parent h; links := links h ++ [(s, t)] |}.
Definition disconnect_output (h : hugr) (s : port) : hugr :=
  {| parent := parent h; links := filter (fun e => negb (same (fst e) s)) (links h) |}.
Definition disconnect_input (h : hugr) (t : port) : hugr :=
  {| parent := parent h; links := filter (fun e => negb (same (snd e) t)) (links h) |}.
Definition set_parent (p : nat) (h : hugr) (n : nat) : hugr :=
  {| parent := fun m => if Nat.eqb m n then Some p else parent h m; links := links h |}.
Definition has_parent (h : hugr) (n r : nat) : bool := match parent h n with Some p => Nat.eqb p r | None => false end.

(** opaque/subgraph.rs:17-44. The signature is that of the ports; whether the subgraph can be inlined is not modelled here. *)
Record subgraph := { sg_nodes : list nat; sg_in : list port; sg_out : list port }.

Section Types.
(** Numbers of values that the operation of a node takes and gives, and the types of ports. *)
Variables (ins outs : nat -> nat) (kin kout : port -> kind).

Definition ports (n k : nat) : list port := map (pair n) (seq 0 k).

(** opaque/subgraph.rs:76-90: a neighbour in the region, outside the set. *)
Definition is_local_boundary (h : hugr) (region : nat) (nodes : list nat) (neighbours : list port) : bool :=
  existsb (fun p => negb (existsb (Nat.eqb (fst p)) nodes) && has_parent h (fst p) region) neighbours.

(** opaque/subgraph.rs:48-128, try_from_nodes. [root] is the entrypoint. *)
Definition try_from_nodes (h : hugr) (root : nat) (nodes : list nat) : subgraph :=
  let region := match nodes with
                | [] => root
                | n :: _ => match parent h n with Some p => p | None => root end
                end in
  {| sg_nodes := nodes;
     sg_in := flat_map (fun n => filter (fun t => is_local_boundary h region nodes (linked_outputs h t)) (ports n (ins n))) nodes;
     sg_out := flat_map (fun n => filter (fun s => is_local_boundary h region nodes (linked_inputs h s)) (ports n (outs n))) nodes |}.

(** The two regions with their input and output nodes. *)
Record regions := { r_old : nat; r_new : nat; old_in : nat; old_out : nat; new_in : nat; new_out : nat }.

(** decoder/subgraph.rs:90-148, one turn of the loop of rewire_external_subgraph_inputs; [found] is what find_typed_wire gives
    for types that have registers or are parameters. *)
Definition rewire_input (rg : regions) (found : port -> port) (h : hugr) (t : port) : hugr :=
  match kin t with
  | Uns =>
      match linked_outputs h t with
      | [s] => if Nat.eqb (fst s) (old_in rg) then connect h (new_in rg, snd s) t else h
      | _ => h
      end
  | _ => connect h (found t) t
  end.

(** decoder/subgraph.rs:150-230, one turn of the loop of rewire_external_subgraph_outputs. *)
Definition rewire_output (rg : regions) (h : hugr) (s : port) : hugr :=
  match kout s with
  | Reg => disconnect_output h s
  | _ =>
      fold_left (fun h t => if Nat.eqb (fst t) (old_out rg)
                            then connect (disconnect_input h (old_out rg, snd t)) s (new_out rg, snd t) else h)
        (linked_inputs h s) h
  end.

(** decoder/subgraph.rs:57-88, insert_external_subgraph. *)
Definition insert_external (rg : regions) (h : hugr) (sg : subgraph) (found : port -> port) : hugr :=
  fold_left (rewire_output rg) (sg_out sg)
    (fold_left (rewire_input rg found) (sg_in sg) (fold_left (set_parent (r_new rg)) (sg_nodes sg) h)).

(** decoder.rs:465-506, 305-400: what the decoder does, in turn: it puts a subgraph back, or makes links for other commands, for
    the straight-through wires and for the outputs. *)
Inductive step := Sub (sg : subgraph) (found : port -> port) | New (es : list link).
Definition do_step (rg : regions) (h : hugr) (st : step) : hugr :=
  match st with
  | Sub sg found => insert_external rg h sg found
  | New es => {| parent := parent h; links := links h ++ es |}
  end.

(** circuit.rs:200-218: links of the old input node which are not those of the old region. *)
Definition move_nonlocal (rg : regions) (h : hugr) : hugr :=
  fold_left (fun h' e =>
      let '((n, i), t) := e in
      if Nat.eqb n (old_in rg)
         && negb (has_parent h (fst t) (r_old rg) || (Nat.ltb i (outs (old_in rg)) && has_parent h (fst t) (r_new rg)))
      then connect h' (new_in rg, i) t else h')
    (links h) h.

(** Descendants of a node, with the depth of the hierarchy as fuel. *)
Fixpoint beneath (depth : nat) (h : hugr) (r n : nat) : bool :=
  match depth with
  | 0 => false
  | S depth => match parent h n with None => false | Some p => Nat.eqb p r || beneath depth h r p end
  end.

(** circuit.rs:220-231: the children of the old region are removed with all below them, those of the decoded function take
    their place, and the function is removed. *)
Definition replace_region (depth : nat) (rg : regions) (h : hugr) : hugr :=
  {| parent := fun n => if beneath depth h (r_old rg) n || Nat.eqb n (r_new rg) then None
                        else if has_parent h n (r_new rg) then Some (r_old rg) else parent h n;
     links := filter (fun e => negb (beneath depth h (r_old rg) (fst (fst e))) && negb (beneath depth h (r_old rg) (fst (snd e))))
                (links h) |}.

(** circuit.rs:159-234, reassemble_inplace for one region. *)
Definition reassemble (depth : nat) (rg : regions) (steps : list step) (h : hugr) : hugr :=
  replace_region depth rg (move_nonlocal rg (fold_left (do_step rg) steps h)).
End Types.
