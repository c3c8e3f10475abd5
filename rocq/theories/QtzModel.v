(** Model of the loader for equivalence classes of circuits written by quartz:
    tket/src/optimiser/badger/qtz_circuit.rs. *)
From Coq Require Import String List Bool Arith.
Import ListNotations.
Open Scope string_scope.
Open Scope list_scope.
Open Scope nat_scope.

(** qtz_circuit.rs:16-41.  Names are strings in the code; here Q i is format!("Q{i}"), P i is format!("P{i}"), and N k any
    other string. *)
Inductive name : Type := Q (i : nat) | P (i : nat) | N (k : nat).
Definition name_eqb (a b : name) : bool :=
  match a, b with Q i, Q j => i =? j | P i, P j => i =? j | N i, N j => i =? j | _, _ => false end.
Record rep_op : Type := { opstr : string; op_outputs : list name; op_inputs : list name }.
Record rep_data : Type := { n_qb : nat; n_input_param : nat; ids : list nat; circ : list rep_op }.

(** Operations and their signatures (tket/src/ops.rs, tket/src/extension/rotation.rs). *)
Inductive op : Type := OH | OCX | OT | OS | OV | OX | OY | OZ | OTdg | OSdg | OVdg | ORz | Oradd.
Inductive kind : Type := Qubit | Rotation.
Definition kind_eqb (a b : kind) : bool := match a, b with Qubit, Qubit | Rotation, Rotation => true | _, _ => false end.
Definition sig_in (o : op) : list kind :=
  match o with OCX => [Qubit; Qubit] | ORz => [Qubit; Rotation] | Oradd => [Rotation; Rotation] | _ => [Qubit] end.
Definition sig_out (o : op) : list kind :=
  match o with OCX => [Qubit; Qubit] | Oradd => [Rotation] | _ => [Qubit] end.

(** qtz_circuit.rs:42-62, map_op; None: panics *)
Definition map_op (s : string) : option op :=
  if String.eqb s "add" then Some Oradd
  else if String.eqb s "h" then Some OH
  else if String.eqb s "cx" then Some OCX
  else if String.eqb s "t" then Some OT
  else if String.eqb s "s" then Some OS
  else if String.eqb s "v" then Some OV
  else if String.eqb s "x" then Some OX
  else if String.eqb s "y" then Some OY
  else if String.eqb s "z" then Some OZ
  else if String.eqb s "tdg" then Some OTdg
  else if String.eqb s "sdg" then Some OSdg
  else if String.eqb s "vdg" then Some OVdg
  else if String.eqb s "rz" then Some ORz
  else None.

(** Graphs under construction: a wire is an input of the circuit or an output port of a node. *)
Inductive wire : Type := WIn (i : nat) | WOut (n p : nat).
Definition wire_eq_dec (a b : wire) : {a = b} + {a <> b}.
Proof. decide equality; apply Nat.eq_dec. Defined.
Inductive unit_ : Type := Linear (i : nat) | Wire (w : wire).
Record state : Type := { units : list (name * unit_); wires : list wire; built : list (op * list wire) }.

Fixpoint get {A : Type} (m : list (name * A)) (x : name) : option A :=
  match m with [] => None | (y, u) :: m => if name_eqb x y then Some u else get m x end.
Fixpoint all_some {A : Type} (l : list (option A)) : option (list A) :=
  match l with
  | [] => Some []
  | Some x :: l => match all_some l with Some r => Some (x :: r) | None => None end
  | None :: _ => None
  end.
Fixpoint set_nth {A : Type} (l : list A) (i : nat) (x : A) : list A :=
  match l, i with [], _ => [] | _ :: l, 0 => x :: l | y :: l, S i => y :: set_nth l i x end.

(** hugr's CircuitBuilder::append_with_outputs: an output replaces the tracked wire that came in at the same port; the
    outputs that are left are returned. *)
Definition unit_wire (ws : list wire) (u : unit_) : option wire :=
  match u with Linear i => nth_error ws i | Wire w => Some w end.
Fixpoint place (us : list unit_) (ws : list wire) (outs : list wire) : list wire * list wire :=
  match outs with
  | [] => (ws, [])
  | w :: outs =>
      match us with
      | Linear i :: us => place us (set_nth ws i w) outs
      | Wire _ :: us => let (ws, rest) := place us ws outs in (ws, w :: rest)
      | [] => let (ws, rest) := place [] ws outs in (ws, w :: rest)
      end
  end.
Definition append (s : state) (o : op) (us : list unit_) : option (state * list wire) :=
  match all_some (map (unit_wire (wires s)) us) with
  | None => None
  | Some ws =>
      let n := length (built s) in
      let outs := map (WOut n) (seq 0 (length (sig_out o))) in
      let (wires, rest) := place us (wires s) outs in
      Some ({| units := units s; wires := wires; built := built s ++ [(o, ws)] |}, rest)
  end.

(** qtz_circuit.rs:92-107, one command; None: panics *)
Definition load_op (s : state) (c : rep_op) : option state :=
  match map_op (opstr c) with
  | None => None
  | Some o =>
      match all_some (map (get (units s)) (op_inputs c)) with
      | None => None
      | Some us =>
          match append s o us with
          | None => None
          | Some (s, rest) =>
              Some {| units := rev (combine (op_outputs c) (map Wire rest)) ++ units s; wires := wires s; built := built s |}
          end
      end
  end.
Fixpoint load_ops (s : state) (l : list rep_op) : option state :=
  match l with [] => Some s | c :: l => match load_op s c with Some s => load_ops s l | None => None end end.

(** Circuits, and hugr's validation of them: ports are connected to wires of their types, each qubit is used once. *)
Record circuit : Type := { c_qubits : nat; c_params : nat; c_nodes : list (op * list wire); c_outputs : list wire }.
Definition wire_kind (c : circuit) (w : wire) : option kind :=
  match w with
  | WIn i => if i <? c_qubits c then Some Qubit else if i <? c_qubits c + c_params c then Some Rotation else None
  | WOut n p => match nth_error (c_nodes c) n with Some (o, _) => nth_error (sig_out o) p | None => None end
  end.
Definition uses (c : circuit) : list wire := concat (map snd (c_nodes c)) ++ c_outputs c.
Definition all_wires (c : circuit) : list wire :=
  map WIn (seq 0 (c_qubits c + c_params c)) ++
  concat (map (fun n => match nth_error (c_nodes c) n with Some (o, _) => map (WOut n) (seq 0 (length (sig_out o))) | None => [] end) (seq 0 (length (c_nodes c)))).
Fixpoint kinds_eqb (l : list (option kind)) (r : list kind) : bool :=
  match l, r with [], [] => true | Some a :: l, b :: r => kind_eqb a b && kinds_eqb l r | _, _ => false end.
Definition validate (c : circuit) : bool :=
  forallb (fun n : op * list wire => kinds_eqb (map (wire_kind c) (snd n)) (sig_in (fst n))) (c_nodes c) &&
  kinds_eqb (map (wire_kind c) (c_outputs c)) (repeat Qubit (c_qubits c)) &&
  forallb (fun w => match wire_kind c w with Some Qubit => count_occ wire_eq_dec (uses c) w =? 1 | _ => true end) (all_wires c).

(** qtz_circuit.rs:65-115, From<RepCircData>; None: panics *)
Definition start (d : rep_data) : state := {|
  units := map (fun i => (P i, Wire (WIn (n_qb d + i)))) (seq 0 (n_input_param d)) ++ map (fun i => (Q i, Linear i)) (seq 0 (n_qb d));
  wires := map WIn (seq 0 (n_qb d));
  built := [];
|}.
Definition load (d : rep_data) : option circuit :=
  match load_ops (start d) (circ d) with
  | None => None
  | Some s =>
      let c := {| c_qubits := n_qb d; c_params := n_input_param d; c_nodes := built s; c_outputs := wires s |} in
      if validate c then Some c else None
  end.

(** qtz_circuit.rs:117-132, load_ecc_set: the classes in the order the first map gives them; the result is a map, in which a
    later entry takes the place of an earlier one with the same id.  None: panics. *)
Definition load_class (l : list rep_data) : option (nat * list circuit) :=
  match l with
  | d :: _ =>
      match ids d with
      | i :: _ => match all_some (map load l) with Some cs => Some (i, cs) | None => None end
      | [] => None
      end
  | [] => None
  end.
Fixpoint insert {A : Type} (m : list (nat * A)) (k : nat) (v : A) : list (nat * A) :=
  match m with [] => [(k, v)] | (j, u) :: m => if k =? j then (k, v) :: m else (j, u) :: insert m k v end.
Definition load_set (classes : list (list rep_data)) : option (list (nat * list circuit)) :=
  match all_some (map load_class classes) with
  | Some l => Some (fold_left (fun m e => insert m (fst e) (snd e)) l [])
  | None => None
  end.
