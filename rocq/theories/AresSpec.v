(** Vocabulary for the properties of results: arguments that fit parameters, operations that the
    constructors make, arrays in memory. *)
From Coq Require Import String List Arith Bool NArith.
From Verif Require Import AresModel.
Import ListNotations.
Local Open Scope N_scope.

(** An argument fits a parameter. *)
Inductive fits : tparam -> targ -> Prop :=
| fits_str : forall s, fits PStr (TStr s)
| fits_nat : forall n, fits (PNat None) (TNat n)
| fits_bound : forall b n, n < b -> fits (PNat (Some b)) (TNat n).

(** The parameters as the comment of the extension lists them (extension/result.rs:61-71). *)
Definition documented (d : rdef) : list tparam :=
  match d with
  | DBool | DF64 => [PStr]
  | DInt | DUInt => [PStr; PNat (Some 7)]
  | DArrBool | DArrF64 => [PStr; PNat None]
  | DArrInt | DArrUInt => [PStr; PNat None; PNat (Some 7)]
  end.

(** Operations that the public constructors make, with widths below a bound. *)
Inductive made (bound : N) : rop -> Prop :=
| made_bool : forall t, made bound {| r_tag := t; r_def := DBool; r_args := RSimple SBasic |}
| made_f64 : forall t, made bound {| r_tag := t; r_def := DF64; r_args := RSimple SBasic |}
| made_int : forall t w, w < bound ->
    made bound {| r_tag := t; r_def := DInt; r_args := RSimple (SInt w) |}
| made_uint : forall t w, w < bound ->
    made bound {| r_tag := t; r_def := DUInt; r_args := RSimple (SInt w) |}
| made_array : forall o n, made bound o -> made bound (array_op o n).

(** The elements of an array in a memory, of k bytes each; what lies behind them. *)
Inductive holds (m : mem) (k : nat) (vals : list N) : aval -> Prop :=
| holds_stack : holds m k vals (AStack vals)
| holds_heap : forall b start off pre post,
    nth_error m b = Some (BBytes true (pre ++ flat_map (le k) vals ++ post)) ->
    length pre = (start + off * k)%nat ->
    holds m k vals (AHeap (b, start) off).

(** The values of the two lowerings. *)
Inductive lowered : bool -> aval -> Prop :=
| lowered_stack : forall vals, lowered false (AStack vals)
| lowered_heap : forall b off, lowered true (AHeap b off).

(** An array with nothing behind it: as it is made. *)
Inductive holds_exact (m : mem) (k : nat) (vals : list N) : aval -> Prop :=
| exact_stack : holds_exact m k vals (AStack vals)
| exact_heap : forall b,
    nth_error m b = Some (BBytes true (flat_map (le k) vals)) ->
    holds_exact m k vals (AHeap (b, 0%nat) 0).

(** Values that fit the given number of bytes. *)
Definition in_range (k : nat) (vals : list N) : Prop :=
  Forall (fun v => v < 256 ^ N.of_nat k) vals.

(** The function of the runtime for each operation, and the bytes of the elements it takes. *)
Inductive reports : rdef -> psym -> nat -> Prop :=
| rep_bool : reports DArrBool PBoolArr 1
| rep_int : reports DArrInt PIntArr 8
| rep_uint : reports DArrUInt PUintArr 8
| rep_f64 : reports DArrF64 PFloatArr 8.

(** Bytes of the stack that are taken; a structure takes 24. *)
Fixpoint stack_bytes (m : mem) : nat :=
  match m with
  | [] => 0
  | BBytes false l :: m => length l + stack_bytes m
  | BBytes true _ :: m => stack_bytes m
  | BStruct _ _ _ _ :: m => 24 + stack_bytes m
  end%nat.
