(** Model of the modification of a whole dataflow region:
    tket/src/modifier/modifier_resolver/dfg_modify.rs:27-80, 82-108, 146-160, 226-250
    (modify_dfg_body, modify_dfg_children, modify_in_out_node, init_control_from_input,
    wire_control_to_output) and modifier_resolver.rs:499-668 (map_insert, add_edge_from_pv,
    add_node_control, connect_all), :929-1000 (modify_dataflow_op, modify_extension_op).

    The region is the body of a DFG, so that the controls are the first ports of its input
    and output nodes; for a function definition they come from and go to arrays (C28).  Its
    nodes are operations of tket, global phases and other operations, which the code copies.
    Nested regions, calls, arrays and constants inside the region are not modelled here.

    The nodes which the code makes for one gate are taken together: they are one node of the
    new region (with the number of the old one), which takes the controls and the qubits, and
    the angle if there is one.  What is inside is the subject of [ModifierModel]. *)
From Coq Require Import List Arith Bool.
From Verif Require Import OpsModel ResolveModel.
Import ListNotations.

(** Nodes of a region: input node, output node, and the others by number. *)
Inductive node := Inp | Outp | Nd (k : nat).

(** modifier_resolver.rs:134, DirWire. *)
Definition wire := (node * port)%type.

(** What a gate does: an operation of tket, or a global phase. *)
Inductive gop := Tk (o : TketOp) | Ph.

(** Operations: a gate, daggered or not, with [n] controls in front; or an operation that is
    copied, with the rows of its signature ([true] for types with qubits). In the old region
    gates have no dagger and no controls. *)
Inductive op :=
| Gate (g : gop) (d : bool) (n : nat)
| Copied (label : nat) (ins outs : list bool).

Definition gop_qubits (g : gop) : nat := match g with Tk o => qubits_in o | Ph => 0 end.
Definition gop_angles (g : gop) : nat := match g with Tk o => params_in o | Ph => 1 end.

(** Regions: the rows of the signature, the nodes with their numbers, and the edges, from an
    output port to an input port. *)
Record graph := {
  g_ins : list bool; g_outs : list bool;
  g_nodes : list (nat * op);
  g_edges : list ((node * nat) * (node * nat))
}.

Definition node_eqb (a b : node) : bool :=
  match a, b with
  | Inp, Inp | Outp, Outp => true
  | Nd k, Nd l => Nat.eqb k l
  | _, _ => false
  end.
Definition wire_eqb (a b : wire) : bool := node_eqb (fst a) (fst b) && port_eqb (snd a) (snd b).

(** State of the resolver (corresp_map, controls) and the new region. *)
Record state := {
  s_map : list (wire * wire);
  s_controls : list (node * nat);
  s_nodes : list (nat * op);
  s_edges : list ((node * nat) * (node * nat))
}.

(** modifier_resolver.rs:500-516, map_insert, and its use on a list of entries. *)
Definition insert (e : wire * wire) (m : list (wire * wire)) : option (list (wire * wire)) :=
  if existsb (fun e' => wire_eqb (fst e') (fst e)) m then None else Some (m ++ [e]).
Fixpoint insert_all (l m : list (wire * wire)) : option (list (wire * wire)) :=
  match l with
  | [] => Some m
  | e :: l => match insert e m with None => None | Some m => insert_all l m end
  end.

(** modifier_resolver.rs:527-534, map_get. *)
Definition map_get (w : wire) (m : list (wire * wire)) : option wire :=
  match find (fun e => wire_eqb (fst e) w) m with None => None | Some e => Some (snd e) end.

(** modifier_resolver.rs:621-630, add_node_control: the current controls go to the first
    ports, and the first output ports are the controls from now on. *)
Definition plug (k : nat) (controls : list (node * nat)) : list ((node * nat) * (node * nat)) :=
  map (fun e => (snd e, (Nd k, fst e))) (combine (seq 0 (length controls)) controls).
Definition replug (k : nat) (controls : list (node * nat)) : list (node * nat) :=
  map (fun i => (Nd k, i)) (seq 0 (length controls)).

(** The port vectors of tket_op_modify.rs (port_vector_dagger and port_vector_rev,
    modifier_resolver.rs:275-297, 586-597, and the other arms likewise): under a dagger the
    qubit ports change sides, the angle does not.  add_edge_from_pv,
    modifier_resolver.rs:599-617, makes the entries. *)
Definition gate_entries (d : bool) (n k q a : nat) : list (wire * wire) :=
  map (fun i => ((Nd k, (Incoming, i)),
                 (Nd k, (if d && (i <? q) then Outgoing else Incoming, n + i)))) (seq 0 (q + a)) ++
  map (fun i => ((Nd k, (Outgoing, i)),
                 (Nd k, (if d then Incoming else Outgoing, n + i)))) (seq 0 q).

(** Ports of two nodes, of which the first has the inputs and the second the outputs. *)
Definition at_nodes (nin nout : node) (p : port) : wire :=
  match fst p with Incoming => (nin, p) | Outgoing => (nout, p) end.
Definition entries (nin nout : node) (m : list (port * port)) : list (wire * wire) :=
  map (fun e => (at_nodes nin nout (fst e), at_nodes nin nout (snd e))) m.

(** tket_op_modify.rs:27-33, the operations that can be modified. (Without any modifier the
    code copies the others; not modelled.) *)
Definition modifiable (g : gop) : bool := match g with Tk o => is_quantum o | Ph => true end.

(** modifier_resolver.rs:722-786 and 972-1000, modify_op for these nodes. *)
Definition visit (d : bool) (n : nat) (s : state) (k : nat) (o : op) : option state :=
  match o with
  | Gate g false 0 =>
      if modifiable g then
        match insert_all (gate_entries d n k (gop_qubits g) (gop_angles g)) (s_map s) with
        | None => None
        | Some m =>
            Some {| s_map := m; s_controls := replug k (s_controls s);
                    s_nodes := s_nodes s ++ [(k, Gate g d n)];
                    s_edges := s_edges s ++ plug k (s_controls s) |}
        end
      else None
  | Gate _ _ _ => None
  | Copied l ins outs =>
      (* modify_dataflow_op *)
      match wire_node_inout (fun b => b) d ins outs 0 0 0 with
      | None => None
      | Some e =>
          match insert_all (entries (Nd k) (Nd k) e) (s_map s) with
          | None => None
          | Some m =>
              Some {| s_map := m; s_controls := s_controls s;
                      s_nodes := s_nodes s ++ [(k, Copied l ins outs)]; s_edges := s_edges s |}
          end
      end
  end.

Definition find_node (nodes : list (nat * op)) (k : nat) : option op :=
  match find (fun e => Nat.eqb (fst e) k) nodes with None => None | Some e => Some (snd e) end.

(** dfg_modify.rs:52-76, modify_dfg_children: the worklist. *)
Fixpoint visit_all (d : bool) (n : nat) (nodes : list (nat * op)) (worklist : list nat) (s : state)
  : option state :=
  match worklist with
  | [] => Some s
  | k :: worklist =>
      match find_node nodes k with
      | None => None
      | Some o =>
          match visit d n s k o with None => None | Some s => visit_all d n nodes worklist s end
      end
  end.

(** modifier_resolver.rs:193-210, connect. *)
Definition connect_wires (a b : wire) : option ((node * nat) * (node * nat)) :=
  match fst (snd a), fst (snd b) with
  | Outgoing, Incoming => Some ((fst a, snd (snd a)), (fst b, snd (snd b)))
  | Incoming, Outgoing => Some ((fst b, snd (snd b)), (fst a, snd (snd a)))
  | _, _ => None
  end.

(** modifier_resolver.rs:633-667, connect_all. Edges for the order of effects are dropped by
    the code; the edges of the model are those for values. *)
Fixpoint connect_all (m : list (wire * wire)) (edges : list ((node * nat) * (node * nat)))
  : option (list ((node * nat) * (node * nat))) :=
  match edges with
  | [] => Some []
  | ((a, i), (b, j)) :: edges =>
      match map_get (b, (Incoming, j)) m, map_get (a, (Outgoing, i)) m with
      | Some t, Some s =>
          match connect_wires t s, connect_all m edges with
          | Some e, Some r => Some (e :: r)
          | _, _ => None
          end
      | _, _ => None
      end
  end.

(** dfg_modify.rs:29-50, modify_dfg_body, with [n] controls and, if [d], a dagger; [order] is
    the topological order of petgraph's [Topo] (external).  The signature of the new region is
    that of modify_signature with [flatten], modifier_resolver.rs:699-713. *)
Definition modify_region (d : bool) (n : nat) (order : list nat) (g : graph) : option graph :=
  match wire_body (fun b => b) d (g_ins g) (g_outs g) 0 0 n with
  | None => None
  | Some e =>
      match insert_all (entries Outp Inp e) [] with
      | None => None
      | Some m =>
          match visit_all d n (g_nodes g) (if d then rev order else order)
                  {| s_map := m; s_controls := map (fun i => (Inp, i)) (seq 0 n);
                     s_nodes := []; s_edges := [] |} with
          | None => None
          | Some s =>
              match connect_all (s_map s) (g_edges g) with
              | None => None
              | Some edges =>
                  Some {| g_ins := repeat true n ++ g_ins g; g_outs := repeat true n ++ g_outs g;
                          g_nodes := s_nodes s;
                          g_edges := s_edges s
                            ++ map (fun e => (snd e, (Outp, fst e)))
                                 (combine (seq 0 (length (s_controls s))) (s_controls s))
                            ++ edges |}
              end
          end
      end
  end.
