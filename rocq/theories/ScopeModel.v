(** Model of resource tracking: tket/src/resource/{types,flow,scope}.rs. *)
From Coq Require Import List Bool Arith.
Import ListNotations.

Inductive direction : Type := Incoming | Outgoing.
Definition direction_dec : forall a b : direction, {a = b} + {a <> b}. Proof. decide equality. Defined.
Definition reverse (d : direction) : direction := match d with Incoming => Outgoing | Outgoing => Incoming end.
(** A port of a node: hugr's Port. *)
Definition port : Type := direction * nat.
Definition port_dec : forall a b : port, {a = b} + {a <> b}. Proof. decide equality; [apply Nat.eq_dec|apply direction_dec]. Defined.

(** The hugr, an external data structure, as far as it is looked at. Types are numbered. Nodes that are not dataflow
    operations have no signature. Only value ports are numbered here; the others matter for [neighbours] alone. *)
Record graph : Type := {
  copyable : nat -> bool;
  signature : nat -> option (list nat * list nat);
  source : nat -> nat -> option (nat * nat);      (* single_linked_output *)
  targets : nat -> nat -> list (nat * nat);       (* linked_inputs *)
  neighbours : nat -> list nat                    (* output_neighbours: along edges of any kind *)
}.

(** types.rs:73-82, CircuitUnit. The sentinel, types.rs:112-114, is [None] below. *)
Inductive unit : Type := Resource (id : nat) | Copyable (wire : nat * nat).
Definition as_resource (u : unit) : option nat := match u with Resource r => Some r | Copyable _ => None end.

(** scope.rs:34-60 with types.rs:36-70 and 196-213. The entry of a node in [circuit_units] is split in the units of its
    ports and its position, which is there exactly if the entry is. Positions are rational numbers there; the ones that
    are computed are natural numbers. The 64 bits of numbers are not modelled. *)
Record state : Type := { units : nat -> port -> option unit; position : nat -> option nat; next_id : nat }.

Section Scope.
Variable g : graph.
(** The nodes of the subgraph, scope.rs:136-140. *)
Variable nodes : list nat.
Definition contains (n : nat) : bool := existsb (Nat.eqb n) nodes.

Definition types (n : nat) (d : direction) : list nat :=
  match signature g n with None => [] | Some (i, o) => match d with Incoming => i | Outgoing => o end end.
Definition port_type (n : nat) (p : port) : option nat := nth_error (types n (fst p)) (snd p).

(** utils.rs:14-16, type_is_linear; also [!ty.copyable()] *)
Definition type_is_linear (t : nat) : bool := negb (copyable g t).

(** scope.rs:538-557, node_circuit_units_mut *)
Definition node_circuit_units_mut (st : state) (n : nat) : option state :=
  match position st n with
  | Some _ => Some st
  | None =>
      match signature g n with
      | None => None
      | Some _ => Some {| units := units st; position := fun m => if Nat.eqb m n then Some 0 else position st m; next_id := next_id st |}
      end
  end.
(** types.rs:166-170, PortMap::set *)
Definition set (st : state) (n : nat) (p : port) (u : option unit) : state :=
  {| units := fun m q => if Nat.eqb m n then (if port_dec q p then u else units st m q) else units st m q; position := position st; next_id := next_id st |}.

(** hugr's Wire::from_connected_port *)
Definition from_connected_port (n : nat) (p : port) : option (nat * nat) :=
  match fst p with Incoming => source g n (snd p) | Outgoing => Some (n, snd p) end.
(** scope.rs:562-585, allocate_circuit_unit; [None]: a panic *)
Definition allocate_circuit_unit (st : state) (n : nat) (p : port) : option (unit * state) :=
  match port_type n p with
  | None => None
  | Some t =>
      if type_is_linear t then Some (Resource (next_id st), {| units := units st; position := position st; next_id := S (next_id st) |})
      else match from_connected_port n p with Some w => Some (Copyable w, st) | None => None end
  end.

(** scope.rs:415-430, assign_circuit_units *)
Fixpoint assign_circuit_units (st : state) (ports : list (nat * nat)) : option state :=
  match ports with
  | [] => Some st
  | (n, i) :: ports =>
      match allocate_circuit_unit st n (Incoming, i) with
      | None => None
      | Some (u, st) =>
          match node_circuit_units_mut st n with
          | None => assign_circuit_units st ports
          | Some st => assign_circuit_units (set st n (Incoming, i) (Some u)) ports
          end
      end
  end.
(** scope.rs:433-449, assign_missing_circuit_units *)
Definition is_sentinel (st : state) (n : nat) (p : port) : bool := match units st n p with None => true | Some _ => false end.
Definition assign_missing_circuit_units (st : state) (n : nat) : option state :=
  match signature g n with
  | None => Some st
  | Some (ins, _) =>
      let ports := seq 0 (length ins) in
      let ports := match position st n with None => ports | Some _ => filter (fun i => is_sentinel st n (Incoming, i)) ports end in
      assign_circuit_units st (map (pair n) ports)
  end.

(** flow.rs:45-56, map_resources; [None]: UnsupportedOp *)
Definition flow : Type := nat -> list (option nat) -> option (list (option nat)).
(** flow.rs:93-121, is_resource_preserving *)
Fixpoint is_resource_preserving (ins outs : list nat) : bool :=
  match ins, outs with
  | [], [] => true
  | [], t :: ts => copyable g t && (fix all l := match l with [] => true | t :: l => copyable g t && all l end) ts
  | t :: ts, [] => copyable g t && (fix all l := match l with [] => true | t :: l => copyable g t && all l end) ts
  | i :: ins, o :: outs =>
      (if negb (copyable g i) || negb (copyable g o) then Nat.eqb i o else true) && is_resource_preserving ins outs
  end.
(** flow.rs:153-165, retain_linear_types *)
Definition resize (n : nat) (l : list (option nat)) : list (option nat) := firstn n l ++ repeat None (n - length l).
Definition retain_linear_types (resources : list (option nat)) (ts : list nat) : list (option nat) :=
  map (fun '(t, r) => if copyable g t then None else r) (combine ts (resize (length ts) resources)).
(** flow.rs:124-151, DefaultResourceFlow *)
Definition default_flow : flow := fun n inputs =>
  Some (if is_resource_preserving (types n Incoming) (types n Outgoing) then retain_linear_types inputs (types n Outgoing)
        else repeat None (length (types n Outgoing))).

(** scope.rs:493-496: the first flow that succeeds *)
Fixpoint find_map (flows : list flow) (n : nat) (inputs : list (option nat)) : option (list (option nat)) :=
  match flows with [] => None | f :: flows => match f n inputs with Some l => Some l | None => find_map flows n inputs end end.
Fixpoint index_of (r : nat) (l : list (option nat)) : option nat :=
  match l with
  | [] => None
  | Some x :: l => if Nat.eqb x r then Some 0 else match index_of r l with Some i => Some (S i) | None => None end
  | None :: l => match index_of r l with Some i => Some (S i) | None => None end
  end.
(** scope.rs:505-519: the loop over the outgoing ports *)
Fixpoint set_outputs (st : state) (n : nat) (inp_resources out_resources : list (option nat)) (ports : list nat) : option state :=
  match ports with
  | [] => Some st
  | p :: ports =>
      match nth p out_resources None with
      | Some r =>
          match index_of r inp_resources with
          | None => None
          | Some i => set_outputs (set st n (Outgoing, p) (units st n (Incoming, i))) n inp_resources out_resources ports
          end
      | None =>
          match allocate_circuit_unit st n (Outgoing, p) with
          | None => None
          | Some (u, st) => set_outputs (set st n (Outgoing, p) (Some u)) n inp_resources out_resources ports
          end
      end
  end.
(** scope.rs:467-520, propagate_to_outputs *)
Definition inp_resources (st : state) (n : nat) : list (option nat) :=
  map (fun i => match units st n (Incoming, i) with Some u => as_resource u | None => None end) (seq 0 (length (types n Incoming))).
Definition propagate_to_outputs (flows : list flow) (st : state) (n : nat) : option state :=
  match node_circuit_units_mut st n with
  | None => Some st
  | Some st =>
      match find_map flows n (inp_resources st n) with
      | None => None
      | Some outs => set_outputs st n (inp_resources st n) outs (seq 0 (length (types n Outgoing)))
      end
  end.
(** scope.rs:533-543: the loop over the linked inputs *)
Fixpoint set_targets (st : state) (pos : nat) (u : option unit) (ts : list (nat * nat)) : state :=
  match ts with
  | [] => st
  | (m, i) :: ts =>
      if contains m then
        match node_circuit_units_mut st m with
        | None => set_targets st pos u ts
        | Some st =>
            let st := set st m (Incoming, i) u in
            let p := match position st m with Some p => p | None => 0 end in
            set_targets {| units := units st; position := fun k => if Nat.eqb k m then Some (max p (S pos)) else position st k; next_id := next_id st |} pos u ts
        end
      else set_targets st pos u ts
  end.
Fixpoint propagate_ports (st : state) (n pos : nat) (ports : list nat) : state :=
  match ports with
  | [] => st
  | p :: ports => propagate_ports (set_targets st pos (units st n (Outgoing, p)) (targets g n p)) n pos ports
  end.
(** scope.rs:524-545, propagate_to_next_inputs *)
Definition propagate_to_next_inputs (st : state) (n : nat) : option state :=
  match signature g n with
  | None => Some st
  | Some (_, outs) =>
      match position st n with
      | None => None
      | Some pos => Some (propagate_ports st n pos (seq 0 (length outs)))
      end
  end.
(** scope.rs:383-411, compute_circuit_units. [incoming]: the incoming ports of the subgraph; [order]: the result of
    portgraph's toposort, an external function. *)
Fixpoint propagate (flows : list flow) (st : state) (order : list nat) : option state :=
  match order with
  | [] => Some st
  | n :: order =>
      match assign_missing_circuit_units st n with
      | None => None
      | Some st =>
          match propagate_to_outputs flows st n with
          | None => None
          | Some st => match propagate_to_next_inputs st n with None => None | Some st => propagate flows st order end
          end
      end
  end.
Definition initial : state := {| units := fun _ _ => None; position := fun _ => None; next_id := 0 |}.
Definition compute_circuit_units (flows : list flow) (incoming : list (nat * nat)) (order : list nat) : option state :=
  match assign_circuit_units initial incoming with
  | None => None
  | Some st => propagate flows st order
  end.

(** scope.rs:178-188, get_port: the first port of the node in the direction with the resource. *)
Fixpoint first_port (st : state) (n r : nat) (d : direction) (ports : list nat) : option port :=
  match ports with
  | [] => None
  | i :: ports =>
      match units st n (d, i) with
      | Some (Resource x) => if Nat.eqb x r then Some (d, i) else first_port st n r d ports
      | _ => first_port st n r d ports
      end
  end.
Definition get_port (st : state) (n r : nat) (d : direction) : option port :=
  match position st n with None => None | Some _ => first_port st n r d (seq 0 (length (types n d))) end.
(** scope.rs:164-170, get_resource_id *)
Definition get_resource_id (st : state) (n : nat) (p : port) : option nat :=
  match position st n with None => None | Some _ => match units st n p with Some u => as_resource u | None => None end end.

(** hugr's single_linked_input, single_linked_port *)
Definition single_linked_input (n p : nat) : option (nat * nat) := match targets g n p with [t] => Some t | _ => None end.
Definition single_linked_port (n : nat) (p : port) : option (nat * nat) :=
  match fst p with Incoming => source g n (snd p) | Outgoing => single_linked_input n (snd p) end.

(** scope.rs:257-272, resource_path_iter, the first [fuel] nodes. Where there is no single linked port, the iterator
    panics: [None]. *)
Fixpoint resource_path_iter (st : state) (r : nat) (d : direction) (fuel : nat) (n : nat) : option (list nat) :=
  match fuel with
  | O => Some []
  | S fuel =>
      match get_port st n r d with
      | None => Some [n]
      | Some p =>
          match single_linked_port n p with
          | None => None
          | Some (m, _) =>
              if contains m then match resource_path_iter st r d fuel m with Some l => Some (n :: l) | None => None end else Some [n]
          end
      end
  end.

(** scope.rs:278-310, any_reachable_from; [fuel] bounds the number of iterations. *)
Definition max_position (st : state) (ends : list nat) : option nat :=
  fold_left (fun m n => match position st n, m with Some p, Some q => Some (max p q) | Some p, None => Some p | None, m => m end) ends None.
Fixpoint reach_loop (fuel : nat) (st : state) (max_end : nat) (ends visited queue : list nat) : option bool :=
  match fuel with
  | O => None
  | S fuel =>
      match queue with
      | [] => Some false
      | n :: queue =>
          let skip := match position st n with None => true | Some p => Nat.ltb max_end p end in
          if skip || existsb (Nat.eqb n) visited then reach_loop fuel st max_end ends visited queue
          else if existsb (Nat.eqb n) ends then Some true
          else reach_loop fuel st max_end ends (n :: visited) (queue ++ neighbours g n)
      end
  end.
Definition any_reachable_from (fuel : nat) (st : state) (starts ends : list (nat * nat)) : option bool :=
  let end_nodes := map fst ends in
  match max_position st end_nodes with
  | None => Some false
  | Some max_end => reach_loop fuel st max_end end_nodes [] (map fst (flat_map (fun '(n, p) => targets g n p) starts))
  end.
End Scope.
