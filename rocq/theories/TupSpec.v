(** Regions with tuples: when they are valid and what they compute. *)
From Coq Require Import List Bool Arith.
From Verif Require Import PatSpec TupModel.
Import ListNotations.
Section Tuples.
Variable O : Type.
Notation node := (node O).
Notation region := (region O).
Definition known (inputs : nat) (l : list node) (w : source) : Prop :=
  (exists k, w = Inp k /\ k < inputs) \/ exists x j, In x l /\ w = Out (t_id x) j /\ j < num_outputs (t_op x).
(** All uses of values. *)
Definition all_uses (c : region) : list source := flat_map t_args (t_nodes c) ++ t_outs c.
(** Nodes have different ids and use values that exist. *)
Record valid (c : region) : Prop := {
  va_ids : NoDup (map t_id (t_nodes c));
  va_order : forall a x b, t_nodes c = a ++ x :: b -> forall w, In w (t_args x) -> known (t_inputs c) a w;
  va_outs : forall w, In w (t_outs c) -> known (t_inputs c) (t_nodes c) w }.
(** Types: a tuple cannot be copied if one of its elements cannot. [fits o ts us]: the operation [o] takes values of the types [ts] to
    values of the types [us]. [ty] gives the type of each value. *)
Inductive typ : Type := Base (linear : bool) (k : nat) | Tuple (ts : list typ).
Fixpoint linear_type (t : typ) : bool := match t with Base b _ => b | Tuple ts => existsb linear_type ts end.
Variable fits : O -> list typ -> list typ -> Prop.
Definition node_typed (ty : source -> typ) (x : node) : Prop :=
  match t_op x with
  | MakeTuple n => length (t_args x) = n /\ ty (Out (t_id x) 0) = Tuple (map ty (t_args x))
  | UnpackTuple n => exists w ts, t_args x = [w] /\ ty w = Tuple ts /\ length ts = n /\ forall j d, j < n -> ty (Out (t_id x) j) = nth j ts d
  | OtherOp o k => fits o (map ty (t_args x)) (map (fun j => ty (Out (t_id x) j)) (seq 0 k))
  end.
(** Values of linear types are used at most once. *)
Record typed (ty : source -> typ) (c : region) : Prop := {
  ty_nodes : forall x, In x (t_nodes c) -> node_typed ty x;
  ty_once : forall w, linear_type (ty w) = true -> count_occ source_eq_dec (all_uses c) w <= 1 }.

(** ** What a region computes

    Values with tuples of them, and a state that other operations may read and change (qubits, outputs, ...). *)
Variables V G : Type.
Variable pack : list V -> V.
Variable unpack : V -> list V.
Variable sem : O -> list V -> G -> list V * G.
Variable dummy : V.
Definition env := source -> V.
Definition set_outs (n : nat) (vs : list V) (e : env) : env := fun w => match w with Out m j => if Nat.eqb m n then nth j vs dummy else e w | _ => e w end.
Definition exec (x : node) (s : env * G) : env * G :=
  let (e, g) := s in
  match t_op x with
  | MakeTuple _ => (set_outs (t_id x) [pack (map e (t_args x))] e, g)
  | UnpackTuple _ => (set_outs (t_id x) (unpack (e (nth 0 (t_args x) (Inp 0)))) e, g)
  | OtherOp o _ => let (vs, g') := sem o (map e (t_args x)) g in (set_outs (t_id x) vs e, g')
  end.
(** The values at the outputs and the final state. *)
Definition results (c : region) (inputs : nat -> V) (g : G) : list V * G :=
  let s := fold_left (fun s x => exec x s) (t_nodes c) (fun w => match w with Inp k => inputs k | _ => dummy end, g) in (map (fst s) (t_outs c), snd s).
End Tuples.
Arguments known {O}. Arguments all_uses {O}. Arguments valid {O}. Arguments node_typed {O}. Arguments typed {O}. Arguments exec {O V G}. Arguments results {O V G}.
Arguments va_ids {O c}. Arguments va_order {O c}. Arguments va_outs {O c}. Arguments ty_nodes {O fits ty c}. Arguments ty_once {O fits ty c}.
