(** Vocabulary: what a value of a type holds that cannot be copied. *)
From Coq Require Import NArith String List Bool.
From Verif Require Import DeclModel.
Import ListNotations.

(** The number of qubits and of contexts in a value of a type; an option counts as full. *)
Fixpoint qubits (t : typ) : N :=
  match t with Qubit => 1 | Option t => qubits t | Array n t => n * qubits t | _ => 0 end.
Fixpoint contexts (t : typ) : N :=
  match t with Context => 1 | Option t => contexts t | Array n t => n * contexts t | _ => 0 end.
Definition total (f : typ -> N) (l : list typ) : N := fold_right (fun t n => (f t + n)%N) 0%N l.

(** Types that may be dropped: nothing in them is a qubit. *)
Definition affine (t : typ) : Prop := qubits t = 0%N.

(** The signatures that the comments of random.rs:102-113 give, with u32, u64, f32 and the
    context. *)
Inductive doc := U (bits : N) | F (bits : N) | RNG | Maybe (d : doc).
Definition documented (r : rop) : list doc * list doc :=
  match r with
  | RandomInt => ([RNG], [U 32; RNG])
  | RandomFloat => ([RNG], [F 32; RNG])
  | RandomIntBounded => ([RNG; U 32], [U 32; RNG])
  | NewRNGContext => ([U 64], [Maybe RNG])
  | DeleteRNGContext => ([RNG], [])
  | RandomAdvance => ([RNG; U 64], [RNG])
  end.
(** An integer type of hugr has two to the power of its parameter bits; its floats have 64. *)
Fixpoint is_doc (d : doc) (t : typ) : Prop :=
  match d, t with
  | U b, Int w => b = (2 ^ w)%N
  | F b, Float => b = 64%N
  | RNG, Context => True
  | Maybe d, Option t => is_doc d t
  | _, _ => False
  end.
