(** Model of the handling of operations that pytket has no command for: the tracker of unsupported nodes
    (tket/src/serialize/pytket/encoder/unsupported_tracker.rs), its use by the encoder (encoder.rs), the registry of opaque subgraphs
    (opaque.rs), standalone payloads and the encoding of nested regions (circuit.rs), and the edges between inline payloads
    (decoder/subgraph.rs, decoder/wires.rs). Paths are relative to tket/src/serialize/pytket. *)
From Coq Require Import List Bool Arith.
Import ListNotations.

(** ** The tracker *)
(** unsupported_tracker.rs:20-41, UnsupportedTracker: the tracked nodes with their component ids, and petgraph's UnionFind: [t_rep] has the
    representative of each id. The representative that a union keeps is of no consequence: ids are only compared by it. *)
Record tracker : Type := { t_nodes : list (nat * nat); t_rep : list nat }.
Definition new_tracker : tracker := {| t_nodes := []; t_rep := [] |}.
Definition find (t : tracker) (id : nat) : nat := nth id (t_rep t) 0.
Definition union (t : tracker) (a b : nat) : tracker :=
  {| t_nodes := t_nodes t; t_rep := map (fun r => if Nat.eqb r (find t b) then find t a else r) (t_rep t) |}.
Fixpoint component (l : list (nat * nat)) (n : nat) : option nat :=
  match l with [] => None | (m, c) :: l => if Nat.eqb m n then Some c else component l n end.
(** unsupported_tracker.rs:53-55 *)
Definition is_unsupported (t : tracker) (n : nat) : bool := match component (t_nodes t) n with Some _ => true | None => false end.
(** unsupported_tracker.rs:58-72, record_node; [neighbours]: the nodes of the incoming edges, order edges included. *)
Definition record_node (t : tracker) (n : nat) (neighbours : list nat) : tracker :=
  let id := length (t_rep t) in
  fold_left (fun t m => match component (t_nodes t) m with Some c => union t c id | None => t end) neighbours
    {| t_nodes := (n, id) :: t_nodes t; t_rep := t_rep t ++ [id] |}.
(** unsupported_tracker.rs:80-106, extract_component: the nodes of the component and the tracker without them. None: the unwrap panics. The
    BTreeSet of the code orders the nodes by number; here they are in the order of the tracker. *)
Definition extract_component (t : tracker) (n : nat) : option (list nat * tracker) :=
  match component (t_nodes t) n with
  | None => None
  | Some c =>
      let same x := Nat.eqb (find t (snd x)) (find t c) in
      Some (map fst (filter same (t_nodes t)), {| t_nodes := filter (fun x => negb (same x)) (t_nodes t); t_rep := t_rep t |})
  end.

(** ** The encoder
    A region is a list of nodes in the order of petgraph's Topo. The input and output node are left out: they are passed over
    (encoder.rs:933-936), and the outputs are read at the end, after all subgraphs are emitted (encoder.rs:252). *)
Record node : Type := {
  n_id : nat;
  n_in : list nat;        (* the nodes of the value edges into it, within the region *)
  n_order : list nat;     (* the nodes of the order edges into it *)
  n_reads : list nat;     (* the nodes whose values are asked for (get_wire_values), by the emitter of the operation *)
  n_ok : bool             (* an emitter accepts it; otherwise it is recorded as unsupported *)
}.
(** opaque.rs:24-31, SubgraphId. *)
Definition subgraph_id : Type := nat * nat.
(** What is emitted: the command of a node (or none, if it only renames values), a barrier for a subgraph (encoder.rs:584-678). *)
Inductive item : Type := Command (n : nat) | OpaqueBarrier (id : subgraph_id) (nodes : list nat).
(** opaque.rs:50-67, OpaqueSubgraphs *)
Record registry : Type := { r_id : nat; r_next : nat; r_graphs : list (subgraph_id * list nat) }.
Definition new_registry (id : nat) : registry := {| r_id := id; r_next := 0; r_graphs := [] |}.
(** opaque.rs:86-94, register_opaque_subgraph. BTreeMap::insert: a new entry is found before an old one. *)
Definition register (r : registry) (g : list nat) : subgraph_id * registry :=
  ((r_id r, r_next r), {| r_id := r_id r; r_next := r_next r + 1; r_graphs := ((r_id r, r_next r), g) :: r_graphs r |}).
Definition id_eqb (a b : subgraph_id) : bool := Nat.eqb (fst a) (fst b) && Nat.eqb (snd a) (snd b).
(** opaque.rs:101-103, get *)
Fixpoint lookup (l : list (subgraph_id * list nat)) (id : subgraph_id) : option (list nat) :=
  match l with [] => None | (i, g) :: l => if id_eqb i id then Some g else lookup l id end.

Record state : Type := { s_tracker : tracker; s_items : list item; s_reg : registry }.
Section Encoder.
Variable region : list node.
(** The barrier of the nodes has a qubit or a bit: an input, an output, or a new register (encoder.rs:658). *)
Variable registers : list nat -> bool.
(** opaque/subgraph.rs:50-132, try_from_nodes: the sources of the incoming ports at the boundary. *)
Definition inputs_of (n : nat) : list nat := flat_map (fun x => if Nat.eqb (n_id x) n then n_in x else []) region.
Definition boundary (g : list nat) : list nat := filter (fun m => negb (existsb (Nat.eqb m) g)) (flat_map inputs_of g).
(** encoder.rs:299-321, get_wire_values, for a wire of node [u], with emit_unsupported (encoder.rs:584-678) in it. The second component: no
    error. An error while the inputs of a subgraph are read is ignored (encoder.rs:607-610), but what was emitted stays. That a wire has no values
    otherwise (WireHasNoValues) is not modelled. *)
Fixpoint get_wire_values (fuel : nat) (s : state) (u : nat) {struct fuel} : state * bool :=
  match fuel with
  | 0 => (s, false)
  | S fuel =>
      match extract_component (s_tracker s) u with
      | None => (s, true)
      | Some (g, t) =>
          let (id, r) := register (s_reg s) g in
          let s := fold_left (fun s m => fst (get_wire_values fuel s m)) (boundary g) {| s_tracker := t; s_items := s_items s; s_reg := r |} in
          if registers g then ({| s_tracker := s_tracker s; s_items := s_items s ++ [OpaqueBarrier id g]; s_reg := s_reg s |}, true)
          else (s, false)                                    (* UnsupportedSubgraphHasNoRegisters *)
      end
  end.
Definition depth (s : state) : nat := S (length (t_nodes (s_tracker s))).
(** The reads of an emitter; None: the error ends the encoding (encoder.rs:883). *)
Fixpoint read_all (s : state) (us : list nat) : option state :=
  match us with [] => Some s | u :: us => match get_wire_values (depth s) s u with (s, true) => read_all s us | (_, false) => None end end.
(** encoder.rs:856-942, try_encode_node *)
Definition try_encode_node (s : state) (n : node) : option state :=
  match read_all s (n_reads n) with
  | None => None
  | Some s =>
      Some (if n_ok n then {| s_tracker := s_tracker s; s_items := s_items s ++ [Command (n_id n)]; s_reg := s_reg s |}
            else {| s_tracker := record_node (s_tracker s) (n_id n) (n_in n ++ n_order n); s_items := s_items s; s_reg := s_reg s |})
  end.
(** encoder.rs:202-212, run_encoder *)
Fixpoint run_encoder (s : state) (l : list node) : option state :=
  match l with [] => Some s | n :: l => match try_encode_node s n with Some s => run_encoder s l | None => None end end.
(** encoder.rs:226-243, finish: the remaining components, in the order of a HashMap ([choose]: any). A subgraph without registers joins the
    extra nodes. *)
Variable choose : list (nat * nat) -> nat.
Fixpoint finish_loop (fuel : nat) (s : state) (extra : list nat) : option (state * list nat) :=
  match t_nodes (s_tracker s) with
  | [] => Some (s, extra)
  | x :: l =>
      match fuel with
      | 0 => None
      | S fuel =>
          let u := fst (nth (choose (x :: l)) (x :: l) x) in
          let g := match extract_component (s_tracker s) u with Some (g, _) => g | None => [] end in
          match get_wire_values (depth s) s u with
          | (s, true) => finish_loop fuel s extra
          | (s, false) => finish_loop fuel s (extra ++ g)
          end
      end
  end.
Record encoded : Type := { e_items : list item; e_extra : option (subgraph_id * list nat); e_reg : registry }.
(** encoder.rs:221-274, finish: the extra nodes are registered once more, as one subgraph (lines 244-250). *)
Definition finish (s : state) : option encoded :=
  match finish_loop (depth s) s [] with
  | None => None
  | Some (s, []) => Some {| e_items := s_items s; e_extra := None; e_reg := s_reg s |}
  | Some (s, extra) => let (id, r) := register (s_reg s) extra in Some {| e_items := s_items s; e_extra := Some (id, extra); e_reg := r |}
  end.
Definition encode (id : nat) : option encoded :=
  match run_encoder {| s_tracker := new_tracker; s_items := []; s_reg := new_registry id |} region with Some s => finish s | None => None end.
End Encoder.

(** ** Nested regions
    circuit.rs:274-328, encode_circuits. [is_dataflow]: the node is a dataflow parent; [children]: its children, in order; [encode_region]: the
    encoder for the region of a node, given the id of the registry. *)
Section Circuits.
Variable is_dataflow : nat -> bool.
Variable children : nat -> list nat.
Variable encode_region : nat -> nat -> option encoded.
Variable encode_subcircuits : bool.
Definition add_candidates (l : list nat) : list nat := filter (fun n => match children n with [] => false | _ => true end) l.
Record circuits : Type := { c_count : nat; c_circuits : list (nat * encoded); c_graphs : list (subgraph_id * list nat) }.
(** HashMap::insert keeps one entry for a region. *)
Definition insert_circuit (l : list (nat * encoded)) (n : nat) (e : encoded) : list (nat * encoded) := (n, e) :: filter (fun x => negb (Nat.eqb (fst x) n)) l.
Definition start : circuits := {| c_count := 0; c_circuits := []; c_graphs := [] |}.
(** One turn of the loop for node [n]: the new state and the candidates to add at the end of the queue. [BTreeMap::ids] are in increasing
    order: the registry has the newest first. *)
Definition encode_candidate (s : circuits) (n : nat) : option (circuits * list nat) :=
  if is_dataflow n then
    let k := c_count s + 1 in
    match encode_region n k with
    | None => None
    | Some e =>
        Some ({| c_count := k; c_circuits := insert_circuit (c_circuits s) n e; c_graphs := r_graphs (e_reg e) ++ c_graphs s |},
              if encode_subcircuits then add_candidates (flat_map snd (rev (r_graphs (e_reg e)))) else [])
    end
  else Some (s, add_candidates (children n)).
Fixpoint encode_circuits (fuel : nat) (s : circuits) (queue : list nat) : option circuits :=
  match queue with
  | [] => Some s
  | n :: queue =>
      match fuel with
      | 0 => None
      | S fuel => match encode_candidate s n with None => None | Some (s, more) => encode_circuits fuel s (queue ++ more) end
      end
  end.
End Circuits.

(** ** Standalone circuits *)
Section Standalone.
Variable Payload : Type.                        (* an inline payload: an envelope, and the types and ids of its edges *)
Variable Text : Type.                           (* data that is no payload *)
(** opaque/payload.rs:78-112, OpaqueSubgraphPayload, and other data of a barrier *)
Inductive data : Type := External (id : subgraph_id) | Inline (p : Payload) | Other (t : Text).
Variable Op : Type.
(** A pytket command: its operation, whether that is a barrier, the data, and the commands of a CircBox. *)
Inductive command : Type := Cmd (op : Op) (barrier : bool) (d : option data) (box : option (list command)).
Variable graphs : list (subgraph_id * list nat).
Variable new_inline : list nat -> option Payload.   (* payload.rs:133-174, new_inline; None: UnsupportedStandaloneSubgraph *)
(** opaque.rs:124-151, inline_if_payload, on the data of a command. None is an error. The data is taken out of the command before it is
    looked at, and put back only if it is an external payload. *)
Definition inline_if_payload (barrier : bool) (d : option data) : option (option data) :=
  if negb barrier then Some d
  else match d with
       | None => Some None
       | Some (External id) => match lookup graphs id with Some g => match new_inline g with Some p => Some (Some (Inline p)) | None => None end | None => None end
       | Some _ => Some None
       end.
(** circuit.rs:388-403, make_commands_standalone *)
Fixpoint standalone (c : command) : option command :=
  match c with
  | Cmd op b d box =>
      match inline_if_payload b d with
      | None => None
      | Some d =>
          match box with
          | None => Some (Cmd op b d None)
          | Some cs =>
              match (fix go (cs : list command) : option (list command) :=
                       match cs with
                       | [] => Some []
                       | c :: cs => match standalone c with None => None | Some c => match go cs with None => None | Some cs => Some (c :: cs) end end
                       end) cs with
              | None => None
              | Some cs => Some (Cmd op b d (Some cs))
              end
          end
      end
  end.
(** circuit.rs:380-413, ensure_standalone, for one circuit. *)
Fixpoint ensure_standalone (cs : list command) : option (list command) :=
  match cs with
  | [] => Some []
  | c :: cs => match standalone c with None => None | Some c => match ensure_standalone cs with None => None | Some cs => Some (c :: cs) end end
  end.
End Standalone.
Arguments External {Payload Text}. Arguments Inline {Payload Text}. Arguments Other {Payload Text}. Arguments Cmd {Payload Text Op}.
Arguments inline_if_payload {Payload Text}. Arguments standalone {Payload Text Op}. Arguments ensure_standalone {Payload Text Op}.

(** ** Edges between inline payloads *)
Definition port : Type := nat * nat.              (* a node and a port *)
(** decoder/wires.rs, UnsupportedWireState *)
Inductive wire_state : Type := Pending (targets : list port) | Associated (w : port).
Record decoder : Type := { d_wires : list (nat * wire_state); d_edges : list (port * port) }.
Definition new_decoder : decoder := {| d_wires := []; d_edges := [] |}.
Fixpoint wire_of (l : list (nat * wire_state)) (id : nat) : wire_state :=
  match l with [] => Pending [] | (i, s) :: l => if Nat.eqb i id then s else wire_of l id end.
Definition connect (w : port) (ts : list port) : list (port * port) := map (fun t => (w, t)) ts.
(** decoder/wires.rs:1073-1089, connect_unsupported_wire_targets *)
Definition connect_targets (d : decoder) (id : nat) (ts : list port) : decoder :=
  match wire_of (d_wires d) id with
  | Associated w => {| d_wires := (id, Associated w) :: d_wires d; d_edges := d_edges d ++ connect w ts |}
  | Pending old => {| d_wires := (id, Pending (old ++ ts)) :: d_wires d; d_edges := d_edges d |}
  end.
(** decoder/wires.rs:1096-1119, connect_unsupported_wire_source; None: the panic. *)
Definition connect_source (d : decoder) (id : nat) (w : port) : option decoder :=
  match wire_of (d_wires d) id with
  | Pending ts => Some {| d_wires := (id, Associated w) :: d_wires d; d_edges := d_edges d ++ connect w ts |}
  | Associated _ => None
  end.
(** An inline payload, without the boundary ports that have registers: for each input the id of its edge and the ports it leads to, for each
    output the port and the id; nodes are numbered as in the payload. [node_map]: the numbers they get when they are inserted. *)
Record payload : Type := { p_inputs : list (nat * list port); p_outputs : list (nat * port); p_node_map : nat -> nat }.
(** decoder/subgraph.rs:341-389 (wire_inline_subgraph_inputs) and 394-444 (wire_inline_subgraph_outputs): the targets are passed on as they are in
    the payload (lines 370-377), the outputs are translated (line 408). *)
Fixpoint connect_outputs (d : decoder) (m : nat -> nat) (l : list (nat * port)) : option decoder :=
  match l with
  | [] => Some d
  | (id, (n, p)) :: l => match connect_source d id (m n, p) with Some d => connect_outputs d m l | None => None end
  end.
Definition insert_inline (d : decoder) (p : payload) : option decoder :=
  connect_outputs (fold_left (fun d x => connect_targets d (fst x) (snd x)) (p_inputs p) d) (p_node_map p) (p_outputs p).
Fixpoint insert_all (d : decoder) (l : list payload) : option decoder :=
  match l with [] => Some d | p :: l => match insert_inline d p with Some d => insert_all d l | None => None end end.
