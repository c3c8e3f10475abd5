(** Properties of the opaque subgraphs of encoded circuits (C62 to C65). *)
From Coq Require Import List Bool Arith Lia Permutation.
From Verif Require Import OpqModel OpqSpec OpqProofs OpqProofs2 OpqMain.
Import ListNotations.

(** ** C62: opaque components are emitted in dataflow order *)
(** Every node is in exactly one command or among the extra nodes; no edge, of values or of order, leads from a command to an earlier one, and none
    leaves the extra nodes; commands are the supported nodes, barriers have only unsupported ones. *)
Theorem C62_order : forall l registers choose id e, topological l -> reads_inputs l -> encode l registers choose id = Some e ->
  Permutation (concat (groups e)) (map n_id l) /\ in_order l (groups e) /\
  (forall n, In (Command n) (e_items e) -> supported l n) /\
  (forall i g, In (OpaqueBarrier i g) (e_items e) -> g <> [] /\ forall u, In u g -> unsupported l u) /\
  (forall u, In u (extra_nodes e) -> unsupported l u).
Proof. exact C62_order_pf. Qed.
(** A path between two nodes of a barrier does not leave it: the subgraph can be taken out of the region and put back. *)
Theorem C62_convex : forall l registers choose id e g, topological l -> reads_inputs l -> encode l registers choose id = Some e ->
  In g (groups e) -> convex l g.
Proof. exact C62_convex_pf. Qed.
(** A barrier does not join nodes that have nothing to do with each other, and it has registers; the extra nodes are from components without. *)
Theorem C62_connected : forall l registers choose id e, topological l -> reads_inputs l -> encode l registers choose id = Some e ->
  (forall i g, In (OpaqueBarrier i g) (e_items e) -> registers g = true /\ forall u v, In u g -> In v g -> linked l g u v) /\
  (forall u, In u (extra_nodes e) -> exists g, In u g /\ registers g = false /\ (forall v, In v g -> unsupported l v) /\ forall v w, In v g -> In w g -> linked l g v w).
Proof. exact C62_connected_pf. Qed.
(** The components are not split without need: two unsupported nodes with an edge are in one group, unless a node at or before the second of them
    had to read the values of the group of the first. *)
Theorem C62_joined : forall l registers choose id e p xv q u, topological l -> reads_inputs l -> encode l registers choose id = Some e ->
  l = p ++ xv :: q -> n_ok xv = false -> unsupported l u -> edge l u (n_id xv) ->
  (exists g, In g (groups e) /\ In u g /\ In (n_id xv) g) \/
  (exists i g x w, In (OpaqueBarrier i g) (e_items e) /\ In u g /\ In x (p ++ [xv]) /\ In w (n_reads x) /\ In w g).
Proof. exact C62_joined_pf. Qed.
(** The encoding fails only if an emitter reads a value of a component of unsupported nodes that has no qubits and no bits. *)
Theorem C62_fails : forall l registers choose id, topological l -> reads_inputs l -> encode l registers choose id = None ->
  exists x w g, In x l /\ In w (n_reads x) /\ In w g /\ (forall u, In u g -> unsupported l u) /\ (forall u v, In u g -> In v g -> linked l g u v) /\ registers g = false.
Proof. exact C62_fails_pf. Qed.
Theorem C62_total_partial : forall l registers choose id, topological l -> reads_inputs l -> (forall g, g <> [] -> registers g = true) ->
  exists e, encode l registers choose id = Some e.
Proof. exact C62_total_partial_pf. Qed.
(** Not always: an operation that computes an angle from nothing, say a call, and a rotation that reads it. *)
Theorem C62_total_refuted : ~ forall l registers choose id, topological l -> reads_inputs l -> exists e, encode l registers choose id = Some e.
Proof. exact C62_total_refuted_pf. Qed.
(** A constant is loaded at once, although it has an order edge (encoder.rs:924-931): then the order of the commands and the convexity of the barriers
    may fail. *)
Theorem C62_order_edges_refuted : exists l registers choose id e i g, topological l /\ (forall x, In x l -> n_ok x = true -> incl (n_in x) (n_reads x)) /\
  encode l registers choose id = Some e /\ In (OpaqueBarrier i g) (e_items e) /\ ~ in_order l (groups e) /\ ~ convex l g.
Proof. exact C62_order_edges_refuted_pf. Qed.

(** ** C63: identifiers of opaque subgraphs *)
(** Over all the regions of a circuit, identifiers are unique, and the identifier of every barrier and of every extra subgraph is looked up to
    exactly the nodes that were encoded in it; there is one circuit for a region. *)
Theorem C63_lookup : forall is_dataflow children (region : nat -> list node) registers choose subcircuits fuel queue c,
  encode_circuits is_dataflow children (fun n => encode (region n) (registers n) (choose n)) subcircuits fuel start queue = Some c ->
  NoDup (map fst (c_graphs c)) /\ NoDup (map fst (c_circuits c)) /\
  forall n e i g, In (n, e) (c_circuits c) -> In (i, g) (opaque e) -> lookup (c_graphs c) i = Some g.
Proof. exact C63_lookup_pf. Qed.
(** The encoding of the nested regions ends, if the hierarchy is well-founded. *)
Theorem C63_ends : forall is_dataflow children (encode_region : nat -> nat -> option encoded) subcircuits (rank : nat -> nat) queue,
  (forall n k, is_dataflow n = true -> exists e, encode_region n k = Some e) ->
  (forall n m, In m (children n) -> rank m < rank n) ->
  (forall n k e i g m, encode_region n k = Some e -> In (i, g) (r_graphs (e_reg e)) -> In m g -> rank m < rank n) ->
  exists fuel c, encode_circuits is_dataflow children encode_region subcircuits fuel start queue = Some c.
Proof. exact C63_ends_pf. Qed.
(** A subgraph without registers is registered twice, alone and as part of the extra subgraph, and the containers in it are encoded for each of
    the two: nested containers without registers are encoded exponentially often. *)
Theorem C63_once_refuted : forall d, exists fuel c, encode_circuits (fun _ => true) nested_children nested_encode true fuel start [S d] = Some c /\
  c_count c = 2 ^ S d - 1 /\ length (c_circuits c) <= S d.
Proof. exact C63_once_refuted_pf. Qed.

(** ** C64: standalone circuits *)
(** Command by command, also in boxes: only the data of barriers changes, and every external payload becomes the inline payload of its subgraph. *)
Theorem C64_inline_partial : forall Payload Text Op graphs (new_inline : list nat -> option Payload) (cs cs' : list (@command Payload Text Op)),
  ensure_standalone graphs new_inline cs = Some cs' ->
  Forall2 (fun x y => match x, y with (k, op, b, d), (k', op', b', d') => k = k' /\ op = op' /\ b = b' /\ (b = false -> d' = d) /\
     (b = true -> match d with Some (External id) => exists g p, lookup graphs id = Some g /\ new_inline g = Some p /\ d' = Some (Inline p) | _ => d' = None end) end) (all_parts cs) (all_parts cs').
Proof. exact C64_inline_partial_pf. Qed.
(** It fails only for an external payload without a subgraph, or whose subgraph has no inline payload. *)
Theorem C64_total : forall Payload Text Op graphs (new_inline : list nat -> option Payload) (cs : list (@command Payload Text Op)),
  (forall k op i, In (k, op, true, Some (External i)) (all_parts cs) -> exists g p, lookup graphs i = Some g /\ new_inline g = Some p) ->
  exists cs', ensure_standalone graphs new_inline cs = Some cs'.
Proof. exact C64_total_pf. Qed.
(** Doing it twice is not doing it once: the second time all data of all barriers is erased, whatever the circuit. *)
Theorem C64_twice_refuted : forall Payload Text Op graphs (new_inline : list nat -> option Payload) (cs cs' : list (@command Payload Text Op)),
  ensure_standalone graphs new_inline cs = Some cs' ->
  exists cs'', ensure_standalone graphs new_inline cs' = Some cs'' /\ forall k op d, In (k, op, true, d) (all_parts cs'') -> d = None.
Proof. exact C64_twice_refuted_pf. Qed.

(** ** C65: edges between inline payloads *)
(** Whatever the order in which the payloads are inserted, every output is connected to all the inputs with its id, once each. *)
Theorem C65_edges : forall ps d, insert_all new_decoder ps = Some d -> Permutation (d_edges d) (join (sources ps) (raw_targets ps)).
Proof. exact C65_edges_pf. Qed.
(** It panics only if two outputs have the same id. *)
Theorem C65_panics : forall ps, insert_all new_decoder ps = None <-> ~ NoDup (map fst (sources ps)).
Proof. exact C65_panics_pf. Qed.
Theorem C65_reordered : forall ps ps' d, Permutation ps ps' -> insert_all new_decoder ps = Some d ->
  exists d', insert_all new_decoder ps' = Some d' /\ Permutation (d_edges d') (d_edges d).
Proof. exact C65_reordered_pf. Qed.
(** The edges go where they should if insertion does not renumber the nodes they lead to. *)
Theorem C65_targets_partial : forall ps d, insert_all new_decoder ps = Some d ->
  (forall p i ts t, In p ps -> In (i, ts) (p_inputs p) -> In t ts -> p_node_map p (fst t) = fst t) ->
  Permutation (d_edges d) (join (sources ps) (targets ps)).
Proof. exact C65_targets_partial_pf. Qed.
(** In general it does, and the targets are not translated (decoder/subgraph.rs:370-377). *)
Theorem C65_targets_refuted : exists ps d, insert_all new_decoder ps = Some d /\ NoDup (map fst (targets ps)) /\
  ~ Permutation (d_edges d) (join (sources ps) (targets ps)).
Proof. exact C65_targets_refuted_pf. Qed.

(** ** Instances: the hypotheses above are met by concrete, non-trivial cases *)
(** Two unsupported nodes joined by an edge, a gate that needs the second, an unsupported node after the gate and the first, and one without registers. *)
Definition region1 : list node :=
  [{| n_id := 0; n_in := []; n_order := []; n_reads := []; n_ok := false |}; {| n_id := 1; n_in := [0]; n_order := []; n_reads := []; n_ok := false |};
   {| n_id := 2; n_in := [1]; n_order := []; n_reads := [1]; n_ok := true |}; {| n_id := 3; n_in := [2; 0]; n_order := []; n_reads := []; n_ok := false |};
   {| n_id := 4; n_in := []; n_order := [0]; n_reads := []; n_ok := false |}].
Definition registers1 (g : list nat) : bool := negb (existsb (Nat.eqb 4) g).
Example C62_instance : topological region1 /\ reads_inputs region1 /\
  exists e, encode region1 registers1 (fun _ => 0) 5 = Some e /\ groups e = [[1; 0]; [2]; [3]; [4]] /\ map fst (opaque e) = [(5, 0); (5, 2); (5, 3)].
Proof.
  split; [|split].
  - apply check_topological. reflexivity.
  - intros x [<-|[<-|[<-|[<-|[<-|[]]]]]] K; try discriminate. cbn. split; auto. intros ?; auto.
  - let r := eval vm_compute in (encode region1 registers1 (fun _ => 0) 5) in match r with Some ?e => exists e end. split; [vm_compute; reflexivity|]. split; vm_compute; reflexivity.
Qed.
(** An extra subgraph is registered again: the container 4 is encoded twice. *)
Example C63_instance : exists c, encode_circuits (fun _ => true) (fun n => match n with 9 => [0; 1; 2; 3; 4] | 4 => [5] | _ => [] end)
    (fun n => encode (if Nat.eqb n 9 then region1 else []) registers1 (fun _ => 0)) true 5 start [9] = Some c /\
  map fst (c_circuits c) = [4; 9] /\ c_count c = 3 /\ map fst (c_graphs c) = [(1, 3); (1, 2); (1, 1); (1, 0)].
Proof.
  let r := eval vm_compute in (encode_circuits (fun _ => true) (fun n => match n with 9 => [0; 1; 2; 3; 4] | 4 => [5] | _ => [] end) (fun n => encode (if Nat.eqb n 9 then region1 else []) registers1 (fun _ => 0)) true 5 start [9]) in match r with Some ?c => exists c end.
  split; [vm_compute; reflexivity|]. split; [reflexivity|]. split; reflexivity.
Qed.
Example C63_ends_instance : (forall n k, (fun _ : nat => true) n = true -> exists e, nested_encode n k = Some e) /\ (forall n m, In m (nested_children n) -> m < n) /\
  (forall n k e i g m, nested_encode n k = Some e -> In (i, g) (r_graphs (e_reg e)) -> In m g -> m < n).
Proof.
  split; [|split].
  - intros [|n] k _; [eexists; reflexivity|]. eexists. apply nested_result.
  - intros [|n] m; cbn; [tauto|]. intros [<-|[]]. lia.
  - intros [|n] k e i g m; [intros [= <-] []|]. rewrite nested_result. intros [= <-]. cbn. intros [[= <- <-]|[[= <- <-]|[]]] [<-|[]]; lia.
Qed.
Example C64_instance : exists cs' cs'', 
  ensure_standalone [((1, 0), [3]); ((1, 1), [4; 5])] (fun g => Some (length g)) [Cmd 1 true (Some (External (1, 0))) None; Cmd 2 false (Some (Other 8)) (Some [Cmd 3 true (Some (External (1, 1))) None])] = Some cs' /\
  map snd (all_parts cs') = [Some (Inline 1); Some (Other 8); Some (Inline 2)] /\ ensure_standalone [((1, 0), [3]); ((1, 1), [4; 5])] (fun g => Some (length g)) cs' = Some cs'' /\ map snd (all_parts cs'') = [None; Some (Other 8); None].
Proof.
  do 2 eexists. split; [reflexivity|]. split; [reflexivity|]. split; reflexivity.
Qed.
Example C65_instance : exists d d', 
  let a := {| p_inputs := [(1, [(0, 0); (0, 1)])]; p_outputs := [(2, (0, 0))]; p_node_map := fun n => n |} in
  let b := {| p_inputs := [(2, [(5, 0)])]; p_outputs := [(1, (5, 0))]; p_node_map := fun n => n |} in
  insert_all new_decoder [a; b] = Some d /\ insert_all new_decoder [b; a] = Some d' /\ length (d_edges d) = 3 /\ d_edges d <> d_edges d' /\ insert_all new_decoder [a; a] = None.
Proof.
  do 2 eexists. split; [reflexivity|]. split; [reflexivity|]. split; [reflexivity|]. split; [discriminate|reflexivity].
Qed.

Print Assumptions C62_order.
Print Assumptions C62_convex.
Print Assumptions C62_connected.
Print Assumptions C62_joined.
Print Assumptions C62_fails.
Print Assumptions C62_total_partial.
Print Assumptions C62_total_refuted.
Print Assumptions C62_order_edges_refuted.
Print Assumptions C63_lookup.
Print Assumptions C63_ends.
Print Assumptions C63_once_refuted.
Print Assumptions C64_inline_partial.
Print Assumptions C64_total.
Print Assumptions C64_twice_refuted.
Print Assumptions C65_edges.
Print Assumptions C65_panics.
Print Assumptions C65_reordered.
Print Assumptions C65_targets_partial.
Print Assumptions C65_targets_refuted.
