(** Vocabulary for modified operations: which ports there are, when a new node can stand in for an old one, and what
    operations on arrays do. *)
From Coq Require Import List Bool Arith.
From Verif Require Import ResolveModel ResolveSpec UnpackModel UnpackSpec ArrModel.
Import ListNotations.

(** What goes through a port: a value of a type, or nothing but order. *)
Inductive cargo : Type := Val (t : ty) | Order.
Definition at_port (e : eop) (p : port) : option cargo :=
  let row := match fst p with Incoming => fst (rows e) | Outgoing => snd (rows e) end in
  match nth_error row (snd p) with
  | Some t => Some (Val t)
  | None => if snd p =? length row then Some Order else None
  end.

(** [new] stands in for [old], daggered if [d] ([holds Qb], from UnpackSpec: types in which the code finds qubits, in tuples,
    arrays and arrays of options): ports correspond one to one, with the same types; under a dagger qubits flow
    backwards, and classical values do not. *)
Record stands_in (d : bool) (old new : eop) (corr : list (port * port)) : Prop := {
  si_once : NoDup (map fst corr);
  si_apart : NoDup (map snd corr);
  si_all : forall p t, at_port old p = Some (Val t) -> In p (map fst corr);
  si_fed : forall q t, at_port new q = Some (Val t) -> In q (map snd corr);
  si_type : forall p q t, In (p, q) corr -> at_port old p = Some (Val t) -> at_port new q = Some (Val t);
  si_quantum : forall p q t, In (p, q) corr -> at_port old p = Some (Val t) -> holds Qb t -> (fst q = fst p <-> d = false);
  si_classical : forall p q t, In (p, q) corr -> at_port old p = Some (Val t) -> ~ holds Qb t -> fst q = fst p
}.

(** Values, and what the operations with daggers do. *)
Inductive item : Type := Qubit_ (q : nat) | Array_ (l : list item).
Definition does (e : eop) (ins outs : list item) : Prop :=
  match e with
  | EArr _ ANew n _ => length ins = n /\ outs = [Array_ ins]
  | EArr _ AUnpack n _ => length outs = n /\ ins = [Array_ outs]
  | EConv _ _ n _ => exists l, length l = n /\ ins = [Array_ l] /\ outs = [Array_ l]
  | _ => False
  end.

(** Rows of operations that can be run backwards as they are (see C29). *)
Definition reversible (ins outs : list ty) : Prop :=
  runs quantum ins = runs quantum outs \/ (exists others, ins = outs ++ others /\ forall t, In t others -> quantum t = false).
