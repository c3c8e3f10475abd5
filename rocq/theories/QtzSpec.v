(** Vocabulary for circuits written by quartz: what they mean, by the names of their wires. *)
From Coq Require Import String List Bool Arith.
From Verif Require Import QtzModel.
Import ListNotations.

(** The names of the operations. *)
Definition op_name (o : op) : string :=
  match o with
  | OH => "h" | OCX => "cx" | OT => "t" | OS => "s" | OV => "v" | OX => "x" | OY => "y" | OZ => "z"
  | OTdg => "tdg" | OSdg => "sdg" | OVdg => "vdg" | ORz => "rz" | Oradd => "add"
  end%string.
Definition named (s : string) : option op :=
  find (fun o => String.eqb (op_name o) s) [OH; OCX; OT; OS; OV; OX; OY; OZ; OTdg; OSdg; OVdg; ORz; Oradd].

Section Meaning.
Context {V : Type}.
Variable dflt : V.
Variable sem : op -> list V -> list V.

(** A command reads the values of its inputs and gives its results to its outputs, in order. *)
Definition env : Type := name -> option V.
Fixpoint assign (e : env) (xs : list name) (vs : list V) : env :=
  match xs, vs with
  | x :: xs, v :: vs => assign (fun y => if name_eqb y x then Some v else e y) xs vs
  | _, _ => e
  end.
Definition run_op (e : env) (c : rep_op) : option env :=
  match named (opstr c), all_some (map e (op_inputs c)) with
  | Some o, Some vs => Some (assign e (op_outputs c) (sem o vs))
  | _, _ => None
  end.
Fixpoint run_ops (e : env) (l : list rep_op) : option env :=
  match l with [] => Some e | c :: l => match run_op e c with Some e => run_ops e l | None => None end end.
Definition env0 (d : rep_data) (inputs : list V) : env := fun x =>
  match x with
  | Q i => if i <? n_qb d then nth_error inputs i else None
  | P i => if i <? n_input_param d then nth_error inputs (n_qb d + i) else None
  | N _ => None
  end.
Definition quartz (d : rep_data) (inputs : list V) : option (list V) :=
  match run_ops (env0 d inputs) (circ d) with
  | Some e => all_some (map (fun i => e (Q i)) (seq 0 (n_qb d)))
  | None => None
  end.

(** Graphs: nodes in order, each with the values of its input wires. *)
Definition value (inputs : list V) (done : list (list V)) (w : wire) : V :=
  match w with WIn i => nth i inputs dflt | WOut n p => nth p (nth n done []) dflt end.
Definition values (inputs : list V) (nodes : list (op * list wire)) : list (list V) :=
  fold_left (fun done n => done ++ [sem (fst n) (map (value inputs done) (snd n))]) nodes [].
Definition eval (c : circuit) (inputs : list V) : list V := map (value inputs (values inputs (c_nodes c))) (c_outputs c).
End Meaning.
Definition arity {V : Type} (sem : op -> list V -> list V) : Prop := forall o vs, length (sem o vs) = length (sig_out o).

(** Commands on known names; qubits are different and come out under the names they went in with. *)
Definition param_name (n : nat) (x : name) : Prop := forall i, i < n -> x <> Q i.
Inductive in_place (n : nat) : list name -> list rep_op -> Prop :=
| ip_nil : forall scope, in_place n scope []
| ip_gate : forall scope c l o qs ps,
    opstr c = op_name o -> sig_in o = repeat Qubit (length qs) ++ repeat Rotation (length ps) -> sig_out o = repeat Qubit (length qs) ->
    op_inputs c = map Q qs ++ ps -> op_outputs c = map Q qs ->
    NoDup qs -> Forall (fun q => q < n) qs -> Forall (fun p => In p scope) ps ->
    in_place n scope l -> in_place n scope (c :: l)
| ip_add : forall scope c l a b x,
    opstr c = "add"%string -> op_inputs c = [a; b] -> op_outputs c = [x] -> In a scope -> In b scope -> param_name n x ->
    in_place n (x :: scope) l -> in_place n scope (c :: l).
Definition well_formed (d : rep_data) : Prop := in_place (n_qb d) (map P (seq 0 (n_input_param d))) (circ d).

(** What validation stands for. *)
Definition well_typed (c : circuit) : Prop :=
  (forall o ws, In (o, ws) (c_nodes c) -> map (wire_kind c) ws = map Some (sig_in o)) /\
  map (wire_kind c) (c_outputs c) = repeat (Some Qubit) (c_qubits c) /\
  forall w, wire_kind c w = Some Qubit -> count_occ wire_eq_dec (concat (map snd (c_nodes c)) ++ c_outputs c) w = 1.
