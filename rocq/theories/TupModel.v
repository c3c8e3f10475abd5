(** Model of the removal of tuple packing followed by unpacking (tket/src/passes/tuple_unpack.rs). *)
From Coq Require Import List Bool Arith.
From Verif Require Import PatSpec.
Import ListNotations.

(** Operations: MakeTuple and UnpackTuple of the prelude with the number of elements (their element types are left out; the typing
    condition of TupSpec.v says that they agree along a wire), and all others. *)
Inductive top (O : Type) : Type := MakeTuple (n : nat) | UnpackTuple (n : nat) | OtherOp (o : O) (outputs : nat).
Arguments MakeTuple {O}. Arguments UnpackTuple {O}. Arguments OtherOp {O}.
(** A region: its nodes in an order in which they can run (hugr keeps them as a graph), each with the sources of its inputs. *)
Record node (O : Type) : Type := { t_id : nat; t_op : top O; t_args : list source }.
Arguments t_id {O}. Arguments t_op {O}. Arguments t_args {O}.
Record region (O : Type) : Type := { t_inputs : nat; t_nodes : list (node O); t_outs : list source }.
Arguments t_inputs {O}. Arguments t_nodes {O}. Arguments t_outs {O}.

Section Tuples.
Variable O : Type.
Notation node := (node O).
Notation region := (region O).
(** is_make_tuple, is_unpack_tuple (tuple_unpack.rs:30-39). *)
Definition is_make_tuple (o : top O) : bool := match o with MakeTuple _ => true | _ => false end.
Definition is_unpack_tuple (o : top O) : bool := match o with UnpackTuple _ => true | _ => false end.
Definition num_outputs (o : top O) : nat := match o with MakeTuple _ => 1 | UnpackTuple n => n | OtherOp _ n => n end.
Definition uses_of (w : source) (l : list source) : nat := count_occ source_eq_dec l w.
(** hugr's linked_inputs of a value (tuple_unpack.rs:63-67), in the order of the nodes: the users, one entry for each port; None is the
    output node of the region. Users in nested regions (non-local edges) are left out. *)
Definition links (c : region) (w : source) : list (option node) :=
  flat_map (fun x => repeat (Some x) (uses_of w (t_args x))) (t_nodes c) ++ repeat None (uses_of w (t_outs c)).
(** tuple_unpack.rs:73-77. *)
Definition unpack_nodes (c : region) (w : source) : list node :=
  flat_map (fun l => match l with Some x => if is_unpack_tuple (t_op x) then [x] else [] | None => [] end) (links c w).
Definition memb (n : nat) (l : list nat) : bool := existsb (Nat.eqb n) l.

(** SiblingSubgraph::try_from_nodes (tuple_unpack.rs:107), external code: the outputs of the subgraph are the ports that are
    linked to nodes outside of it, in the order of the nodes it was given and of their ports. Its inputs are those of the pack
    node, each on its own (the only input of an unpack node is the tuple). *)
Definition outside (c : region) (ids : list nat) (w : source) : bool :=
  existsb (fun l => match l with Some x => negb (memb (t_id x) ids) | None => true end) (links c w).
Definition boundary_outputs (c : region) (nodes : list node) : list source :=
  filter (outside c (map t_id nodes)) (flat_map (fun x => map (Out (t_id x)) (seq 0 (num_outputs (t_op x)))) nodes).

(** The replacement built by remove_pack_unpack (tuple_unpack.rs:127-148): its outputs, by the input or the new tuple they come
    from, and whether it contains a new pack node. *)
Inductive rwire : Type := RIn (k : nat) | RTuple.
Definition cycle_take (n total : nat) : list rwire := match n with 0 => [] | _ => map (fun q => RIn (q mod n)) (seq 0 total) end.
Record tuple_rewrite : Type := { rw_pack : node; rw_removed : list nat; rw_outs : list source; rw_new : list rwire; rw_keep : bool }.
Inductive outcome : Type := NoRewrite | Rewrite (r : tuple_rewrite) | PanicRewrite.
Definition remove_pack_unpack (c : region) (x : node) (n : nat) (unpacks : list node) (others : nat) : outcome :=
  let total := n * length unpacks in
  let nodes := unpacks ++ [x] in
  let outs := boundary_outputs c nodes in
  let new := cycle_take n total ++ repeat RTuple others in
  (* the debug assertion and finish_hugr_with_outputs, which compares the outputs with the signature of the subgraph *)
  if Nat.eqb (length outs) (length new) then Rewrite {| rw_pack := x; rw_removed := map t_id nodes; rw_outs := outs; rw_new := new; rw_keep := Nat.ltb 0 others |}
  else PanicRewrite.
(** make_rewrite (tuple_unpack.rs:41-91) for one command. *)
Definition make_rewrite (c : region) (x : node) : outcome :=
  match t_op x with
  | MakeTuple n =>
      let w := Out (t_id x) 0 in
      let us := unpack_nodes c w in
      match us with
      | [] => NoRewrite
      | _ => remove_pack_unpack c x n us (length (links c w) - length us)
      end
  | _ => NoRewrite
  end.

(** CircuitRewrite::apply (rewrite.rs:75-84) through hugr's SimpleReplacement: the nodes of the subgraph are removed, users of its
    outputs are connected to the outputs of the replacement; the new pack node takes the place of the old one. *)
Fixpoint position (w : source) (l : list source) : option nat :=
  match l with [] => None | v :: l => if source_eq_dec w v then Some 0 else option_map S (position w l) end.
Definition target (r : tuple_rewrite) (fresh : nat) (k : rwire) (d : source) : source :=
  match k with RIn q => nth q (t_args (rw_pack r)) d | RTuple => Out fresh 0 end.
Definition redirect (r : tuple_rewrite) (fresh : nat) (w : source) : source :=
  match position w (rw_outs r) with Some q => target r fresh (nth q (rw_new r) RTuple) w | None => w end.
Definition apply_node (r : tuple_rewrite) (fresh : nat) (x : node) : list node :=
  if Nat.eqb (t_id x) (t_id (rw_pack r)) then (if rw_keep r then [{| t_id := fresh; t_op := t_op x; t_args := t_args x |}] else [])
  else if memb (t_id x) (rw_removed r) then []
  else [{| t_id := t_id x; t_op := t_op x; t_args := map (redirect r fresh) (t_args x) |}].
Definition apply (c : region) (r : tuple_rewrite) (fresh : nat) : region :=
  {| t_inputs := t_inputs c; t_nodes := flat_map (apply_node r fresh) (t_nodes c); t_outs := map (redirect r fresh) (t_outs c) |}.
Definition next_id (c : region) : nat := S (fold_right Nat.max 0 (map t_id (t_nodes c))).

(** find_tuple_unpack_rewrites (tuple_unpack.rs:20-24) is lazy: its first element; the loop of its users applies it until there is none. None: panic. *)
Fixpoint first_rewrite (c : region) (l : list node) : outcome :=
  match l with [] => NoRewrite | x :: l => match make_rewrite c x with NoRewrite => first_rewrite c l | o => o end end.
Fixpoint untuple (fuel : nat) (c : region) : option (option region) :=     (* None: out of fuel *)
  match first_rewrite c (t_nodes c) with
  | NoRewrite => Some (Some c)
  | PanicRewrite => Some None
  | Rewrite r => match fuel with 0 => None | S fuel => untuple fuel (apply c r (next_id c)) end
  end.
End Tuples.
Arguments is_unpack_tuple {O}. Arguments links {O}. Arguments unpack_nodes {O}. Arguments make_rewrite {O}. Arguments apply {O}. Arguments next_id {O}.
Arguments untuple {O}. Arguments first_rewrite {O}. Arguments Rewrite {O}. Arguments NoRewrite {O}. Arguments PanicRewrite {O}. Arguments remove_pack_unpack {O}.
Arguments rw_pack {O}. Arguments rw_removed {O}. Arguments rw_outs {O}. Arguments rw_new {O}. Arguments rw_keep {O}. Arguments redirect {O}. Arguments apply_node {O}. Arguments num_outputs {O}.
Arguments boundary_outputs {O}. Arguments outside {O}. Arguments target {O}.
