(** Model of the greedy commutation pass, tket/src/passes/commutation.rs. *)
From Coq Require Import List Bool Arith.
From Verif Require Import OpsModel.
Import ListNotations.
Local Notation S := Datatypes.S.

(** hugr's CircuitUnit: a linear unit or a wire. *)
Inductive unit_ : Type := Linear (q : nat) | UWire (node port : nat).
Definition unit_eq_dec (a b : unit_) : {a = b} + {a <> b}.
Proof. decide equality; apply Nat.eq_dec. Defined.

(** commutation.rs:19-29, ComCommand, with its derived equality. *)
Record com : Type := { c_node : nat; c_inputs : list unit_ }.
Definition com_eq_dec (a b : com) : {a = b} + {a <> b}.
Proof. decide equality; [apply list_eq_dec, unit_eq_dec|apply Nat.eq_dec]. Defined.
Definition com_eqb (a b : com) : bool := if com_eq_dec a b then true else false.

(** commutation.rs:43-50, qubits. *)
Definition qubits (c : com) : list nat :=
  flat_map (fun u => match u with Linear q => [q] | UWire _ _ => [] end) (c_inputs c).
(** Iterator::position. *)
Fixpoint position {A : Type} (f : A -> bool) (l : list A) : option nat :=
  match l with
  | [] => None
  | x :: r => if f x then Some 0 else option_map S (position f r)
  end.
(** commutation.rs:51-59, port_of_qb (the index; the same in both directions). *)
Definition port_of_qb (c : com) (q : nat) : option nat :=
  position (fun u => if unit_eq_dec u (Linear q) then true else false) (c_inputs c).

(** commutation.rs:62-63, Slice and SliceVec: per slice and qubit the command, if any. *)
Definition slice : Type := list (option com).
Fixpoint set_nth {A : Type} (i : nat) (v : A) (l : list A) : list A :=
  match l, i with
  | [], _ => []
  | _ :: r, 0 => v :: r
  | x :: r, S i => x :: set_nth i v r
  end.

(** commutation.rs:65-69, add_to_slice. *)
Definition add_to_slice (s : slice) (c : com) : slice := fold_left (fun s q => set_nth q (Some c) s) (qubits c) s.

Section Pass.
(** The operation of a node, if it is a TketOp (is_slice_op, commutation.rs:104-107, and the
    casts in commutes_at_slice). *)
Variable optype : nat -> option TketOp.

(** The maximum of the free slices of the qubits; [None] if there are no qubits (unwrap of
    [max] on an empty iterator) or an index is out of range. *)
Fixpoint free_slice (free : list nat) (qs : list nat) : option nat :=
  match qs with
  | [] => None
  | [q] => nth_error free q
  | q :: rest =>
      match nth_error free q, free_slice free rest with Some a, Some b => Some (Nat.max a b) | _, _ => None end
  end.
(** commutation.rs:71-101, load_slices; [None] is a panic. *)
Definition load_step (n_qbs : nat) (st : list slice * list nat) (c : com) : option (list slice * list nat) :=
  let (slices, free) := st in
  match optype (c_node c) with
  | None => Some st
  | Some _ =>
      match free_slice free (qubits c) with
      | None => None
      | Some f =>
          let free := fold_left (fun fr q => set_nth q (S f) fr) (qubits c) free in
          let slices := if length slices <=? f then slices ++ [repeat None n_qbs] else slices in
          match nth_error slices f with
          | None => None
          | Some s => Some (set_nth f (add_to_slice s c) slices, free)
          end
      end
  end.
Fixpoint load_steps (n_qbs : nat) (st : list slice * list nat) (cs : list com) : option (list slice * list nat) :=
  match cs with
  | [] => Some st
  | c :: rest => match load_step n_qbs st c with Some st => load_steps n_qbs st rest | None => None end
  end.
Definition load_slices (n_qbs : nat) (cs : list com) : option (list slice) :=
  option_map fst (load_steps n_qbs ([], repeat 0 n_qbs) cs).

(** slice_vec[i][q]; the indices are those of commands that load_slices has put there. *)
Definition slot (slices : list slice) (i q : nat) : option com := nth q (nth i slices []) None.

(** commutation.rs:181-185, commutation_on_port. *)
Definition commutation_on_port (comms : list (nat * Pauli)) (port : nat) : option Pauli :=
  option_map snd (find (fun x => Nat.eqb (fst x) port) comms).

(** Hash maps from qubits to commands; later entries shadow earlier ones. *)
Definition qmap : Type := list (nat * com).
Definition qget (m : qmap) (q : nat) : option com := option_map snd (find (fun x => Nat.eqb (fst x) q) m).

(** The table entry of a command on a qubit (commutation.rs:158-170). *)
Definition entry_on (c : com) (q : nat) : option Pauli :=
  match port_of_qb c q, optype (c_node c) with
  | Some port, Some op => commutation_on_port (qubit_commutation op) port
  | _, _ => None
  end.
(** commutation.rs:144-179, commutes_at_slice. *)
Fixpoint commutes_on (c : com) (slices : list slice) (i : nat) (qs : list nat) : option qmap :=
  match qs with
  | [] => Some []
  | q :: rest =>
      match slot slices i q with
      | None => commutes_on c slices i rest
      | Some other =>
          match entry_on c q, entry_on other q with
          | Some p, Some p' =>
              if commutes_with p p' then
                match commutes_on c slices i rest with Some m => Some ((q, other) :: m) | None => None end
              else None
          | _, _ => None
          end
      end
  end.
Definition commutes_at_slice (c : com) (slices : list slice) (i : nat) : option qmap := commutes_on c slices i (qubits c).

(** commutation.rs:111-140, available_slice, from slice [i] down. *)
Definition all_empty (c : com) (slices : list slice) (i : nat) : bool :=
  forallb (fun q => match slot slices i q with None => true | Some _ => false end) (qubits c).
Fixpoint available_slice (c : com) (slices : list slice) (i : nat) (prev : qmap) (av : option (nat * qmap))
    : option (nat * qmap) :=
  if all_empty c slices i then
    match i with 0 => Some (i, prev) | S j => available_slice c slices j prev (Some (i, prev)) end
  else
    match i with
    | 0 => av
    | S j =>
        match commutes_at_slice c slices i with
        | Some m => available_slice c slices j (m ++ prev) av
        | None => av
        end
    end.

(** The graph: for every qubit the nodes on its wire, from input to output. *)
Definition wires : Type := nat -> list nat.
Fixpoint insert_before (x y : nat) (l : list nat) : option (list nat) :=
  match l with
  | [] => None
  | z :: r => if Nat.eqb z y then Some (x :: z :: r) else option_map (cons z) (insert_before x y r)
  end.
Definition set_wire (w : wires) (q : nat) (l : list nat) : wires := fun r => if Nat.eqb r q then l else w r.
(** commutation.rs:248-303, PullForward::apply, on the wires of the qubits [qs]: disconnect the
    node, connect its neighbours, insert it before the new neighbour. [None]: an error or a
    panic. *)
Fixpoint pull_forward (c : com) (new_nexts : qmap) (qs : list nat) (w : wires) : option wires :=
  match qs with
  | [] => Some w
  | q :: rest =>
      match qget new_nexts q with
      | None => None
      | Some nb =>
          if com_eqb nb c then pull_forward c new_nexts rest w
          else
            match insert_before (c_node c) (c_node nb) (remove Nat.eq_dec (c_node c) (w q)) with
            | None => None
            | Some l => pull_forward c new_nexts rest (set_wire w q l)
            end
      end
  end.

(** commutation.rs:327-330: take the command from one slice and put it in the other. *)
Definition move_slots (c : com) (slices : list slice) (src dst : nat) : list slice :=
  fold_left (fun sl q =>
    let x := slot sl src q in
    let sl := set_nth src (set_nth q None (nth src sl [])) sl in
    set_nth dst (set_nth q x (nth dst sl [])) sl) (qubits c) slices.

(** commutation.rs:308-314: iter().flatten().unique(): the first occurrences. *)
Fixpoint unique (seen : list com) (s : slice) : list com :=
  match s with
  | [] => []
  | None :: r => unique seen r
  | Some c :: r => if existsb (com_eqb c) seen then unique seen r else c :: unique (c :: seen) r
  end.
Definition slice_commands (s : slice) : list com := unique [] s.

(** commutation.rs:316-336: the commands of one slice. *)
Fixpoint commute_commands (cs : list com) (i : nat) (slices : list slice) (w : wires) (count : nat)
    : option (list slice * wires * nat) :=
  match cs with
  | [] => Some (slices, w, count)
  | c :: rest =>
      match available_slice c slices i [] None with
      | None => commute_commands rest i slices w count
      | Some (dst, new_nexts) =>
          match pull_forward c new_nexts (qubits c) w with
          | None => None
          | Some w => commute_commands rest i (move_slots c slices i dst) w (S count)
          end
      end
  end.
(** commutation.rs:304-339: the slices from [i] on. *)
Fixpoint commute_slices (todo i : nat) (slices : list slice) (w : wires) (count : nat) : option (list slice * wires * nat) :=
  match todo with
  | 0 => Some (slices, w, count)
  | S todo =>
      match commute_commands (slice_commands (nth i slices [])) i slices w count with
      | None => None
      | Some (slices, w, count) => commute_slices todo (S i) slices w count
      end
  end.
(** The wires of a circuit given by its commands in order. *)
Definition circuit_wires (cs : list com) : wires :=
  fun q => map c_node (filter (fun c => existsb (Nat.eqb q) (qubits c)) cs).
(** commutation.rs:304-339, apply_greedy_commutation on a circuit given by its commands in
    order: the slices and wires at the end and the number of moves. *)
Definition greedy_commutation (n_qbs : nat) (cs : list com) : option (list slice * wires * nat) :=
  match load_slices n_qbs cs with
  | None => None
  | Some slices => commute_slices (length slices) 0 slices (circuit_wires cs) 0
  end.
End Pass.
