(** Model of tket/src/circuit/extract_dfg.rs:12-104: a region is turned into a dataflow graph,
    and the empty sum that a block of a control flow graph gives first is dropped.  (The function
    is marked as unused in the code.)

    A region is the list of its nodes, in the order of children, and of its links.  Input ports
    of the output node are numbered, the last one is for order edges. *)
From Coq Require Import List Bool Arith.
Import ListNotations.

Inductive ty := UnitSum | Ty (n : nat).
Inductive xop := XInput | XOutput (tys : list ty) | XTag | XOther.
(** A link from an output port of a node to an input port of a node. *)
Definition port : Type := nat * nat.
Definition link : Type := port * port.
Record graph := { g_nodes : list (nat * xop); g_links : list link }.

Definition eqp (p q : port) : bool := Nat.eqb (fst p) (fst q) && Nat.eqb (snd p) (snd q).

Fixpoint get_op (n : nat) (l : list (nat * xop)) : option xop :=
  match l with [] => None | (m, o) :: l => if Nat.eqb n m then Some o else get_op n l end.

(** hugr: linked_outputs; all_linked_outputs goes through all the input ports, with [k] types
    and the port for order edges; single_linked_output. *)
Definition linked_outputs (g : graph) (n p : nat) : list port :=
  map fst (filter (fun l => eqp (snd l) (n, p)) (g_links g)).
Definition all_linked_outputs (g : graph) (n k : nat) : list port :=
  flat_map (linked_outputs g n) (seq 0 (S k)).
Definition single_linked_output (g : graph) (n p : nat) : option port :=
  match linked_outputs g n p with [x] => Some x | _ => None end.

(** hugr: remove_node, with its links; add_node_after, with the new number [x]. *)
Definition remove_node (n : nat) (g : graph) : graph :=
  {| g_nodes := filter (fun m => negb (Nat.eqb (fst m) n)) (g_nodes g);
     g_links := filter (fun l => negb (Nat.eqb (fst (fst l)) n) && negb (Nat.eqb (fst (snd l)) n))
                  (g_links g) |}.
Fixpoint insert_after (n x : nat) (o : xop) (l : list (nat * xop)) : list (nat * xop) :=
  match l with
  | [] => []
  | m :: l => if Nat.eqb (fst m) n then m :: (x, o) :: l else m :: insert_after n x o l
  end.
Definition add_node_after (n x : nat) (o : xop) (g : graph) : graph :=
  {| g_nodes := insert_after n x o (g_nodes g); g_links := g_links g |}.

(** hugr: connect, to an output node; None is a panic, if there is no such node or port. *)
Definition connect (s : port) (n i : nat) (g : graph) : option graph :=
  match get_op (fst s) (g_nodes g), get_op n (g_nodes g) with
  | Some _, Some (XOutput tys) =>
      if Nat.leb i (length tys)
      then Some {| g_nodes := g_nodes g; g_links := g_links g ++ [(s, (n, i))] |}
      else None
  | _, _ => None
  end.

(** extract_dfg.rs:96-98, the loop. *)
Fixpoint reconnect (ss : list port) (n i : nat) (g : graph) : option graph :=
  match ss with
  | [] => Some g
  | s :: ss => match connect s n i g with Some g => reconnect ss n (S i) g | None => None end
  end.

Inductive outcome := Same | Changed (g : graph) (tys : list ty) | Panic.

(** extract_dfg.rs:47-104 remove_cfg_empty_output_tuple; [x] is the number of the new node. *)
Definition remove_empty_tuple (input output x : nat) (g : graph) : outcome :=
  match get_op output (g_nodes g) with
  | Some (XOutput tys) =>
      match tys with
      | [] => Panic
      | Ty _ :: _ => Same
      | UnitSum :: rest =>
          match single_linked_output g output 0 with
          | None => Same
          | Some (tag, _) =>
              match get_op tag (g_nodes g) with
              | Some XTag =>
                  let neighs := skipn 1 (all_linked_outputs g output (length tys)) in
                  let g := remove_node tag (remove_node output g) in
                  let g := add_node_after input x (XOutput rest) g in
                  match reconnect neighs x 0 g with
                  | Some g => Changed g rest
                  | None => Panic
                  end
              | _ => Same
              end
          end
      end
  | _ => Panic
  end.

(** extract_dfg.rs:12-36 rewrite_into_dfg: the types and the numbers of ports (inputs, outputs)
    of the parent, if it is a block. *)
Definition into_dfg (ins outs : list ty) (input output x : nat) (g : graph)
  : option (list ty * list ty * (nat * nat) * graph) :=
  match remove_empty_tuple input output x g with
  | Panic => None
  | Same => Some (ins, outs, (length ins + 1, length ins + 1), g)
  | Changed g rest => Some (ins, rest, (length ins + 1, length ins + 1), g)
  end.
