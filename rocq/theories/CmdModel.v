(** Model of the command iterator: tket/src/circuit/command.rs and circuit/units.rs.

    A region is a list of nodes (CmdSpec); [outer] are the nodes of the hugr outside of it. The order of
    the nodes comes from petgraph (TopoModel); the root node, which the code skips, is left out.
    Hash maps are association lists with one entry per key. Panics are [None]. *)
From Coq Require Import List Bool Arith.
From Verif Require Import TopoModel CmdSpec.
Import ListNotations.

Section Region.
Variables g outer : list node.
Definition find_node (n : nat) : option node := find (fun m => Nat.eqb (nid m) n) g.
(** hugr.output_neighbours: once per edge, in or out of the region. *)
Definition output_neighbours (n : nat) : list nat :=
  flat_map (fun m => map (fun _ => nid m) (filter (Nat.eqb n) (preds m))) (g ++ outer).

(** command.rs:253, delayed_consumers: a map to counters. *)
Definition counts : Type := list (nat * nat).
Fixpoint get (c : counts) (n : nat) : option nat := match c with [] => None | (m, k) :: c => if Nat.eqb m n then Some k else get c n end.
Definition del (c : counts) (n : nat) : counts := filter (fun e => negb (Nat.eqb (fst e) n)) c.
Definition put (c : counts) (n k : nat) : counts := (n, k) :: del c n.
(** command.rs:311-313 *)
Definition incr (c : counts) (n : nat) : counts := put c n (S (match get c n with Some k => k | None => 0 end)).
(** command.rs:322-330 *)
Definition decr (c : option counts) (n : nat) : option counts :=
  match c with
  | None => None
  | Some c =>
      match get c n with
      | None => None                                           (* panic: not in delayed_consumers *)
      | Some k => if Nat.eqb (k - 1) 0 then Some (del c n) else Some (put c n (k - 1))
      end
  end.

(** command.rs:234-261, CommandIterator: the fields for the order of nodes. *)
Record state : Type := { rest : list nat; delayed : list nat; consumers : counts; delayed_node : option nat }.

(** command.rs:340-358, next_delayed_node. Fuel: the number of nodes. *)
Fixpoint next_delayed (fuel : nat) (st : state) (consumer : nat) : option nat :=
  match fuel with
  | 0 => None
  | S fuel =>
      match find_node consumer with
      | None => None
      | Some m =>
          match find (fun k => existsb (Nat.eqb k) (delayed st)) (preds m) with
          | None => None                                       (* panic: no delayed predecessor *)
          | Some p => match get (consumers st) p with Some _ => next_delayed fuel st p | None => Some p end
          end
      end
  end.

(** command.rs:294-337, next_node: [None] panics, [Some (None, _)] is the end. *)
Definition handle (st : state) (n : nat) : option (option nat * state) + state :=
  match find_node n with
  | None => inl None
  | Some m =>
      if is_const m then
        inr {| rest := rest st; delayed := n :: delayed st; consumers := fold_left incr (output_neighbours n) (consumers st); delayed_node := None |}
      else
        match get (consumers st) n with
        | None => inl (Some (Some n, {| rest := rest st; delayed := delayed st; consumers := consumers st; delayed_node := None |}))
        | Some _ =>
            match next_delayed (length g) st n with
            | None => inl None
            | Some d =>
                match fold_left decr (output_neighbours d) (Some (consumers st)) with
                | None => inl None
                | Some c => inl (Some (Some d, {| rest := rest st; delayed := filter (fun k => negb (Nat.eqb k d)) (delayed st); consumers := c; delayed_node := Some n |}))
                end
            end
        end
  end.
Definition take (st : state) : option (nat * state) :=
  match delayed_node st with
  | Some n => Some (n, {| rest := rest st; delayed := delayed st; consumers := consumers st; delayed_node := None |})
  | None => match rest st with
            | [] => None
            | n :: r => Some (n, {| rest := r; delayed := delayed st; consumers := consumers st; delayed_node := None |})
            end
  end.
Fixpoint next_node (fuel : nat) (st : state) : option (option nat * state) :=
  match fuel with
  | 0 => None
  | S fuel =>
      match take st with
      | None => Some (None, st)
      | Some (n, st) => match handle st n with inl r => r | inr st => next_node fuel st end
      end
  end.
(** command.rs:440-455, next: all nodes that next_node gives. The units are assigned to them one by one
    with separate fields, see below. *)
Fixpoint all_nodes (fuel : nat) (st : state) : option (list nat) :=
  match fuel with
  | 0 => None
  | S fuel =>
      match next_node (S (S (length (rest st)))) st with
      | None => None
      | Some (None, _) => Some []
      | Some (Some n, st) => match all_nodes fuel st with Some l => Some (n :: l) | None => None end
      end
  end.

(** command.rs:244, wire_unit *)
Definition units : Type := list (wire * nat).
Definition weqb (a b : wire) : bool := Nat.eqb (fst a) (fst b) && Nat.eqb (snd a) (snd b).
Fixpoint unit_of (u : units) (w : wire) : option nat := match u with [] => None | (x, k) :: u => if weqb x w then Some k else unit_of u w end.
Definition unset (u : units) (w : wire) : units := filter (fun e => negb (weqb (fst e) w)) u.
Definition set_unit (u : units) (w : wire) (k : nat) : units := (w, k) :: unset u w.
(** command.rs:397-432, process_node: the linear inputs and outputs, zipped. *)
Fixpoint fresh_units (u : units) (o : list wire) : units * list nat :=
  match o with [] => (u, []) | w :: o => let k := length u in let '(u, b) := fresh_units (set_unit u w k) o in (u, k :: b) end.
Fixpoint zip_units (u : units) (i o : list wire) : units * list nat * list nat :=
  match i with
  | [] => let '(u, b) := fresh_units u o in (u, [], b)
  | v :: i =>
      match o with
      | [] => match unit_of u v with
              | Some k => let '(u, a, b) := zip_units (unset u v) i [] in (u, k :: a, b)
              | None => zip_units u i []
              end
      | w :: o => match unit_of u v with
                  | Some k => let '(u, a, b) := zip_units (set_unit (unset u v) w k) i o in (u, k :: a, k :: b)
                  | None => zip_units u i o
                  end
      end
  end.
(** command.rs:368-382: inputs and outputs are skipped. *)
Fixpoint process (u : units) (l : list nat) : option (list command) :=
  match l with
  | [] => Some []
  | n :: l =>
      match find_node n with
      | None => None
      | Some m =>
          if is_io m then process u l
          else
            let '(u, a, b) := zip_units u (linear_ins m) (linear_outs m) in
            match process u l with Some cs => Some ({| cnode := m; cin := a; cout := b |} :: cs) | None => None end
      end
  end.
(** command.rs:268-273: the linear units of the circuit's input. *)
Definition input_units : units :=
  match find (fun m => match ntag m with TInput => true | _ => false end) g with
  | Some i => combine (linear_outs i) (seq 0 (length (linear_outs i)))
  | None => []
  end.
(** command.rs:265-291 and 440-455: all commands, for the order [l] of nodes. *)
Definition commands (l : list nat) : option (list command) :=
  match all_nodes (S (2 * length l)) {| rest := l; delayed := []; consumers := []; delayed_node := None |} with
  | None => None
  | Some ns => process input_units ns
  end.
(** command.rs:282-284: the region as a graph (edges from outside are not in it), walked by petgraph. *)
Definition region_preds (n : nat) : list nat :=
  match find (fun m => nid m =? n) g with Some m => filter (fun p => existsb (Nat.eqb p) (map nid g)) (preds m) | None => [] end.
Definition region_succs (n : nat) : list nat := flat_map (fun m => map (fun _ => nid m) (filter (Nat.eqb n) (preds m))) g.
Definition region_order : option (list nat) := topo (map nid g) region_succs region_preds.
End Region.

(** units.rs:146-192 with command.rs:163-188: the input units of a command. [None]: panic. *)
Inductive cunit : Type := ULinear (u : nat) | UWire (w : wire).
Fixpoint label_ports (units : list nat) (port : nat) (l : list (bool * wire)) : option (list cunit) :=
  match l with
  | [] => Some []
  | (linear, w) :: l =>
      match (if linear then option_map ULinear (nth_error units port) else Some (UWire w)), label_ports units (S port) l with
      | Some x, Some r => Some (x :: r)
      | _, _ => None
      end
  end.
Definition command_inputs (c : command) : option (list cunit) := label_ports (cin c) 0 (ins (cnode c)).
Definition command_outputs (c : command) : option (list cunit) :=
  label_ports (cout c) 0 (combine (outs (cnode c)) (map (fun p => (nid (cnode c), p)) (seq 0 (length (outs (cnode c)))))).
