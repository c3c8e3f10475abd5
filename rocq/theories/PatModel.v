(** Model of circuit patterns, matches and rewrites (tket/src/portmatching.rs, portmatching/pattern.rs,
    portmatching/matcher.rs, rewrite.rs). *)
From Coq Require Import List Bool Arith.
From Verif Require Import PatSpec.
Import ListNotations.

(** ** Replacement of a subgraph: hugr's SimpleReplacement, as applied by rewrite.rs:75-84

    [f]: the nodes of the matched pattern [p] in [c], [i]: the values at its inputs; [r]: the replacement, whose
    nodes get new numbers from [off] on. External code: modelled by what it does. *)
Section Replace.
Variable Op : Type.
Notation circuit := (circuit Op).
Definition place (i : nat -> source) (off : nat) (w : source) : source := match w with Inp k => i k | Out n j => Out (off + n) j end.
Definition in_image (p : circuit) (f : nat -> nat) (n : nat) : bool := existsb (fun x => Nat.eqb (f (fst x)) n) (c_nodes p).
Fixpoint position (w : source) (l : list source) : option nat :=
  match l with [] => None | v :: l => if source_eq_dec w v then Some 0 else option_map S (position w l) end.
Definition placed_outs (p : circuit) (f : nat -> nat) : list source := map (fun w => match w with Out n j => Out (f n) j | _ => w end) (c_outs p).
Definition redirect (p r : circuit) (f : nat -> nat) (i : nat -> source) (off : nat) (w : source) : source :=
  match position w (placed_outs p f) with Some k => place i off (nth k (c_outs r) w) | None => w end.
Definition replace (c p r : circuit) (f : nat -> nat) (i : nat -> source) (off : nat) : circuit :=
  {| c_inputs := c_inputs c;
     c_nodes := filter (fun x => negb (in_image p f (fst x))) (c_nodes c) ++ map (fun x => (off + fst x, snd x)) (c_nodes r);
     c_src := fun n k => if Nat.ltb n off then redirect p r f i off (c_src c n k) else place i off (c_src r (n - off) k);
     c_outs := map (redirect p r f i off) (c_outs c) |}.
End Replace.
Arguments in_image {Op}. Arguments placed_outs {Op}. Arguments redirect {Op}. Arguments replace {Op}.

(** ** Operations and what is compared of them *)
(** hugr's OpType. [ContainerOp]: a node with children (DFG, conditional, tail loop, CFG, ...): [data] stands for the
    fields of the operation (its signature), [body] for what its children compute. *)
Inductive optype : Type :=
  | ExtOp (extension id : nat) (args : list nat)
  | ContainerOp (kind data body : nat)
  | OtherOp (kind data : nat).                     (* constants with their value, LoadConstant with its type, ... *)
(** MatchOp (matcher.rs:29-38): the name and the encoded operation. *)
Inductive match_op : Type := MExt (extension id : nat) (args : list nat) | MContainer (kind data : nat) | MOther (kind data : nat).
(** MatchOp::from, encode_op (matcher.rs:40-65): of an extension operation the extension, name and arguments; of all others
    the serialised operation, which does not contain the children of the node (the
    names of containers differ from those of other operations). Signatures of extension operations follow
    from their arguments, and are left out. *)
Definition encode (o : optype) : match_op :=
  match o with ExtOp e n a => MExt e n a | ContainerOp k d _ => MContainer k d | OtherOp k d => MOther k d end.
Definition match_op_eq_dec (a b : match_op) : {a = b} + {a <> b}.
Proof. decide equality; try apply Nat.eq_dec. apply (list_eq_dec Nat.eq_dec). Defined.

(** ** Ports *)
Inductive hnode : Type := HIn | HOut | HNode (n : nat).                    (* the input, the output, another node *)
Inductive port : Type := PIn (k : nat) | POut (k : nat).
Definition port_eq_dec (a b : port) : {a = b} + {a <> b}.
Proof. decide equality; apply Nat.eq_dec. Defined.
(** NodeID (portmatching.rs:184-187). *)
Inductive node_id : Type := HugrNode (n : hnode) | CopyNode (n : hnode) (p : port).
Definition node_id_eq_dec (a b : node_id) : {a = b} + {a <> b}.
Proof. decide equality; try apply port_eq_dec; decide equality; apply Nat.eq_dec. Defined.
(** PEdge (portmatching.rs:83-99). *)
Inductive pedge : Type := InternalEdge (src dst : port) (is_reversible : bool) | InputEdge (src : port).
(** PEdge::reverse (portmatching.rs:151-164). *)
Definition pedge_reverse (e : pedge) : option pedge :=
  match e with InternalEdge s d r => if r then Some (InternalEdge d s r) else None | InputEdge _ => None end.
(** An edge of the portmatching crate: source, target and property. *)
Record edge : Type := { e_src : node_id; e_dst : node_id; e_prop : pedge }.
Definition edge_reverse (e : edge) : option edge :=
  match pedge_reverse (e_prop e) with Some q => Some {| e_src := e_dst e; e_dst := e_src e; e_prop := q |} | None => None end.

Section Matching.
Variables ain aout : optype -> nat.
Variable lin : optype -> nat -> bool.              (* input ports of linear type *)
Variable typed : optype -> nat -> bool.            (* input ports for values or constants: not the function port of a call *)
Notation circuit := (circuit optype).
Definition op_of (c : circuit) (n : nat) : option optype := option_map snd (find (fun x => Nat.eqb (fst x) n) (c_nodes c)).
Definition port_of (w : source) : hnode * port := match w with Inp k => (HIn, POut k) | Out n j => (HNode n, POut j) end.
(** All ports that use a value. *)
Definition users (c : circuit) (w : source) : list (hnode * port) :=
  flat_map (fun x => map (fun k => (HNode (fst x), PIn k)) (filter (fun k => if source_eq_dec (c_src c (fst x) k) w then true else false) (seq 0 (ain (snd x))))) (c_nodes c)
  ++ map (fun q => (HOut, PIn q)) (filter (fun q => if source_eq_dec (nth q (c_outs c) w) w then true else false) (seq 0 (length (c_outs c)))).
(** hugr's linked_ports. *)
Definition linked_ports (c : circuit) (n : hnode) (p : port) : list (hnode * port) :=
  match n, p with
  | HNode m, PIn k => match op_of c m with Some o => if Nat.ltb k (ain o) then [port_of (c_src c m k)] else [] | None => [] end
  | HNode m, POut j => users c (Out m j)
  | HIn, POut k => users c (Inp k)
  | HOut, PIn q => match nth_error (c_outs c) q with Some w => [port_of w] | None => [] end
  | _, _ => []
  end.
Definition exactly_one {A} (l : list A) : option A := match l with [x] => Some x | _ => None end.

(** ** Patterns from circuits (pattern.rs:33-100) *)
Inductive perror : Type := EmptyCircuit | NotConnected | EmptyWire | Panic.
(** PEdge::try_from_port (portmatching.rs:116-145) for input ports; None: InvalidEdgeProperty, which panics in the caller. *)
Definition edge_from_port (c : circuit) (n : nat) (o : optype) (k : nat) : option pedge :=
  match exactly_one (linked_ports c (HNode n) (PIn k)) with
  | None => None
  | Some (HIn, _) => Some (InputEdge (PIn k))
  | Some (_, dst) => if typed o k then Some (InternalEdge (PIn k) dst (lin o k)) else None
  end.
(** pattern.rs:42-60. *)
Definition input_edge (c : circuit) (x : nat * optype) (k : nat) : option edge :=
  match edge_from_port c (fst x) (snd x) k, exactly_one (linked_ports c (HNode (fst x)) (PIn k)) with
  | Some q, Some (pn, pp) => Some {| e_src := HugrNode (HNode (fst x)); e_dst := match q with InternalEdge _ _ _ => HugrNode pn | InputEdge _ => CopyNode pn pp end; e_prop := q |}
  | _, _ => None
  end.
Fixpoint all_some {A} (l : list (option A)) : option (list A) :=
  match l with [] => Some [] | o :: l => match o, all_some l with Some x, Some xs => Some (x :: xs) | _, _ => None end end.
(** The portmatching crate's order of the edges: from a root along edges, or against reversible ones. Any order that does this is
    allowed in the theorems; this one makes the model executable. *)
Definition in_ids (n : node_id) (l : list node_id) : bool := if in_dec node_id_eq_dec n l then true else false.
Fixpoint pick (bound : list node_id) (todo : list edge) : option (edge * list edge) :=
  match todo with
  | [] => None
  | e :: rest =>
      if in_ids (e_src e) bound then Some (e, rest)
      else match (if in_ids (e_dst e) bound then edge_reverse e else None) with
           | Some e' => Some (e', rest)
           | None => match pick bound rest with Some (x, r) => Some (x, e :: r) | None => None end
           end
  end.
Fixpoint traverse (fuel : nat) (bound : list node_id) (todo : list edge) : list edge * list edge * list node_id :=
  match fuel with
  | 0 => ([], todo, bound)
  | S fuel => match pick bound todo with
              | None => ([], todo, bound)
              | Some (e, rest) => match traverse fuel (e_dst e :: bound) rest with (es, r, b) => (e :: es, r, b) end
              end
  end.
Record pattern : Type := { p_nodes : list (nat * match_op); p_edges : list edge; p_root : nat; p_order : list edge;
  p_inputs : list (list (hnode * port)); p_outputs : list (hnode * port) }.
(** set_any_root, is_valid (pattern.rs:62-65): a root from which all nodes and edges can be reached. *)
Definition root_order (nodes : list (nat * match_op)) (edges : list edge) (root : nat) : option (list edge) :=
  match traverse (length edges) [HugrNode (HNode root)] edges with
  | (es, [], b) => if forallb (fun x => in_ids (HugrNode (HNode (fst x))) b) nodes then Some es else None
  | _ => None
  end.
Fixpoint any_root (nodes : list (nat * match_op)) (edges : list edge) (l : list (nat * match_op)) : option (nat * list edge) :=
  match l with [] => None | x :: l => match root_order nodes edges (fst x) with Some es => Some (fst x, es) | None => any_root nodes edges l end end.
(** CircuitPattern::try_from_circuit (pattern.rs:33-100). [commands]: the nodes of the region, see CmdModel.v; constants that
    are defined outside the region are nodes of [c], but not commands. num_operations is counted in this region only. *)
Definition try_from_circuit (c : circuit) (commands : list (nat * optype)) : pattern + perror :=
  if existsb (fun x => match snd x with ExtOp _ _ _ => true | _ => false end) (c_nodes c) then
    match all_some (flat_map (fun x => map (input_edge c x) (seq 0 (ain (snd x)))) commands) with
    | None => inr Panic
    | Some edges =>
        let nodes := map (fun x => (fst x, encode (snd x))) commands in
        match any_root nodes edges nodes with
        | None => inr NotConnected
        | Some (root, order) =>
            let inputs := map (fun k => linked_ports c HIn (POut k)) (seq 0 (c_inputs c)) in
            let outputs := map port_of (c_outs c) in
            if existsb (fun x => match fst x with HOut => true | _ => false end) (concat inputs) then inr EmptyWire
            else inl {| p_nodes := nodes; p_edges := edges; p_root := root; p_order := order; p_inputs := inputs; p_outputs := outputs |}
        end
    end
  else inr EmptyCircuit.

(** ** Matching *)
(** validate_circuit_edge (matcher.rs:430-456). *)
Definition validate_edge (c : circuit) (src : node_id) (prop : pedge) : option node_id :=
  match src with
  | CopyNode _ _ => None
  | HugrNode n =>
      match prop with
      | InternalEdge s d _ => match exactly_one (linked_ports c n s) with Some (m, q) => if port_eq_dec d q then Some (HugrNode m) else None | None => None end
      | InputEdge s => match exactly_one (linked_ports c n s) with Some (m, q) => Some (CopyNode m q) | None => None end
      end
  end.
(** validate_circuit_node (matcher.rs:458-468). The input and output nodes are operations of their own. *)
Definition validate_node (c : circuit) (n : node_id) (o : match_op) : bool :=
  match n with
  | HugrNode (HNode m) => match op_of c m with Some o' => if match_op_eq_dec (encode o') o then true else false | None => false end
  | _ => false
  end.
(** The portmatching crate's SinglePatternMatcher::get_match_map: it follows the edges of the pattern from the root, and keeps
    a one-to-one map from pattern nodes to nodes of the circuit. *)
Definition bimap := list (node_id * node_id).
Definition lookup (m : bimap) (a : node_id) : option node_id := option_map snd (find (fun x => if node_id_eq_dec (fst x) a then true else false) m).
Definition bind (m : bimap) (a b : node_id) : option bimap :=
  match lookup m a with
  | Some b' => if node_id_eq_dec b' b then Some m else None
  | None => if in_dec node_id_eq_dec b (map snd m) then None else Some ((a, b) :: m)
  end.
Fixpoint follow (c : circuit) (es : list edge) (m : bimap) : option bimap :=
  match es with
  | [] => Some m
  | e :: es =>
      match lookup m (e_src e) with
      | None => None
      | Some s => match validate_edge c s (e_prop e) with
                  | None => None
                  | Some t => match bind m (e_dst e) t with Some m => follow c es m | None => None end
                  end
      end
  end.
Definition get_match_map (p : pattern) (order : list edge) (c : circuit) (root : nat) : option bimap :=
  match follow c order [(HugrNode (HNode (p_root p)), HugrNode (HNode root))] with
  | Some m => if forallb (fun x => match lookup m (HugrNode (HNode (fst x))) with Some n => validate_node c n (snd x) | None => false end) (p_nodes p) then Some m else None
  | None => None
  end.
(** map[n] in pattern.rs:115-126, matcher.rs:146-158; 0 where the code would panic. *)
Definition node_map (m : bimap) (n : nat) : nat := match lookup m (HugrNode (HNode n)) with Some (HugrNode (HNode k)) => k | _ => 0 end.
(** The values at the boundary of the subgraph (matcher.rs:143-158): input [k] of the subgraph are the images of the
    ports that use input [k] of the pattern; its value is the source of the first of them. *)
Definition boundary_input (c : circuit) (p : pattern) (m : bimap) (k : nat) : source :=
  match nth_error (p_inputs p) k with
  | Some ((HNode n, PIn q) :: _) => c_src c (node_map m n) q
  | _ => Inp 0
  end.
(** PatternMatch::to_rewrite, CircuitRewrite::apply (matcher.rs:209-215, rewrite.rs:28-84). *)
Definition rewrite_match (c pc r : circuit) (p : pattern) (m : bimap) (off : nat) : circuit := replace c pc r (node_map m) (boundary_input c p m) off.
End Matching.
