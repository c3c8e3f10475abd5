(** Model of the replacement of booleans in static arrays: tket-qsystem/src/replace_bools/static_array.rs.

    Programs are lists of loads of constants, [get], [len] and unwrapping of options; types and values
    are those that can be in them.  Of hugr's [ReplaceTypes] the model has: [transform] on types (a
    replaced type, else the type arguments), [change_value] on constants (components and type of sums;
    the function for the type of an opaque value; arrays and lists look at their element type), and
    that type arguments of operations are transformed before the function for the operation is called.
    Function values are left out. *)
From Coq Require Import List Bool Arith.
Import ListNotations.

(** Types: [TBool] is tket.bool; [TSeq] an array or list type, [TPlain] an extension type without type
    arguments (0 is usize), [TFun] a function type. *)
Inductive ty : Type :=
| TBool
| TSum (rows : list (list ty))
| TStatic (t : ty)
| TSeq (k : nat) (t : ty)
| TPlain (k : nat)
| TFun (ins outs : list ty).
Fixpoint ty_dec (a b : ty) {struct a} : {a = b} + {a <> b}.
Proof. decide equality; try apply Nat.eq_dec; try (apply list_eq_dec; exact ty_dec); try (apply list_eq_dec; apply list_eq_dec; exact ty_dec). Defined.
Definition ty_eqb (a b : ty) : bool := if ty_dec a b then true else false.
(** bool_t and option_type of the prelude *)
Definition bit_rows : list (list ty) := [[]; []].
Definition bit_t : ty := TSum bit_rows.
Definition opt_t (t : ty) : ty := TSum [[]; [t]].

Inductive val : Type :=
| VBool (b : bool)                                       (* ConstBool *)
| VSum (tag : nat) (vs : list val) (rows : list (list ty))
| VStatic (elem : ty) (vs : list val)                    (* StaticArrayValue *)
| VSeq (k : nat) (elem : ty) (vs : list val)             (* ArrayValue, ListValue *)
| VPlain (k n : nat).
Definition bit_v (b : bool) : val := VSum (if b then 1 else 0) [] bit_rows.

(** static_array.rs:60-83, inner_replace_types, on types: whether anything changes, and the result *)
Fixpoint in_changes (t : ty) : bool :=
  match t with
  | TBool => true
  | TSum rows => existsb (existsb in_changes) rows
  | TStatic t => in_changes t
  | TSeq _ t => in_changes t
  | TPlain _ => false
  | TFun ins outs => existsb in_changes ins || existsb in_changes outs
  end.
Fixpoint in_type (t : ty) : ty :=
  match t with
  | TBool => bit_t
  | TSum rows => TSum (map (map in_type) rows)
  | TStatic t => TStatic (in_type t)
  | TSeq k t => TSeq k (in_type t)
  | TPlain k => TPlain k
  | TFun ins outs => TFun (map in_type ins) (map in_type outs)
  end.
(** on values; static_array.rs:161-186, replace_const_static_array: the array is changed only if an element is *)
Fixpoint in_value (v : val) : val * bool :=
  match v with
  | VBool b => (bit_v b, true)
  | VSum tag vs rows => (VSum tag (map (fun v => fst (in_value v)) vs) (map (map in_type) rows), existsb (fun v => snd (in_value v)) vs || in_changes (TSum rows))
  | VStatic e vs =>
      if existsb (fun v => snd (in_value v)) vs then (VStatic (in_type e) (map (fun v => fst (in_value v)) vs), true) else (VStatic e vs, false)
  | VSeq k e vs => if in_changes e then (VSeq k (in_type e) (map (fun v => fst (in_value v)) vs), true) else (VSeq k e vs, false)
  | VPlain k n => (VPlain k n, false)
  end.

(** static_array.rs:102-159, outer_replace_types, on types: the argument is transformed first; if the
    function for the type gives nothing, the type has the transformed argument *)
Fixpoint out_changes (t : ty) : bool :=
  match t with
  | TBool => false
  | TSum rows => existsb (existsb out_changes) rows
  | TStatic t => out_changes t || in_changes t
  | TSeq _ t => out_changes t
  | TPlain _ => false
  | TFun ins outs => existsb out_changes ins || existsb out_changes outs
  end.
Fixpoint out_type (t : ty) : ty :=
  match t with
  | TBool => TBool
  | TSum rows => TSum (map (map out_type) rows)
  | TStatic t => let t := out_type t in if in_changes t then TStatic (in_type t) else TStatic t
  | TSeq k t => TSeq k (out_type t)
  | TPlain k => TPlain k
  | TFun ins outs => TFun (map out_type ins) (map out_type outs)
  end.
Fixpoint out_value (v : val) : val * bool :=
  match v with
  | VBool b => (VBool b, false)
  | VSum tag vs rows => (VSum tag (map (fun v => fst (out_value v)) vs) (map (map out_type) rows), existsb (fun v => snd (out_value v)) vs || out_changes (TSum rows))
  | VStatic e vs =>
      if existsb (fun v => snd (in_value v)) vs then (VStatic (in_type e) (map (fun v => fst (in_value v)) vs), true) else (VStatic e vs, false)
  | VSeq k e vs => if out_changes e then (VSeq k (out_type e) (map (fun v => fst (out_value v)) vs), true) else (VSeq k e vs, false)
  | VPlain k n => (VPlain k n, false)
  end.

(** The nodes made by build_new_to_old: none, make_opaque, or a conditional with a tag in each case. *)
Inductive code : Type :=
| Keep
| MakeOpaque
| Cases (cases : list (list code)) (rows : list (list ty)).

(** [map] of a function that may fail *)
Definition all_some {X Y} (f : X -> option Y) : list X -> option (list Y) :=
  fix go l :=
    match l with
    | [] => Some []
    | x :: l => match f x, go l with Some y, Some r => Some (y :: r) | _, _ => None end
    end.
(** static_array.rs:198-256, build_new_to_old; [None]: the panic for other types *)
Fixpoint new_to_old (t : ty) : option code :=
  match t with
  | TBool => Some MakeOpaque
  | TStatic _ | TSeq _ _ | TPlain _ => Some Keep
  | TSum rows =>
      if in_changes (TSum rows) then match all_some (all_some new_to_old) rows with Some cs => Some (Cases cs rows) | None => None end
      else Some Keep
  | TFun _ _ => None
  end.
(** The validation in finish_hugr: the nodes take a value of type [new] to one of type [old]. *)
Definition all_2 {X Y} (f : X -> Y -> bool) : list X -> list Y -> bool :=
  fix go l r := match l, r with [], [] => true | x :: l, y :: r => f x y && go l r | _, _ => false end.
Definition all_3 {X Y Z} (f : X -> Y -> Z -> bool) : list X -> list Y -> list Z -> bool :=
  fix go l r s := match l, r, s with [], [], [] => true | x :: l, y :: r, z :: s => f x y z && go l r s | _, _, _ => false end.
Fixpoint code_ok (c : code) (new old : ty) : bool :=
  match c with
  | Keep => ty_eqb new old
  | MakeOpaque => ty_eqb new bit_t && ty_eqb old TBool
  | Cases cs rows =>
      match new, old with
      | TSum news, TSum olds => ty_eqb old (TSum rows) && all_3 (all_3 code_ok) cs news olds
      | _, _ => false
      end
  end.

(** Programs: each instruction gives one value. *)
Inductive instr : Type :=
| Load (v : val) (t : ty)            (* a constant and LoadConstant of type [t] *)
| Get (t : ty) (arr idx : nat)       (* static_array.get *)
| Len (t : ty) (arr : nat)           (* static_array.len *)
| Unwrap (t : ty) (o : nat)          (* the value in an option, or a panic *)
| GetConv (new old : ty) (c : code) (arr idx : nat).  (* the nested graph of get_op_dest *)

(** static_array.rs:258-303, get_op_dest *)
Inductive dest : Type := DNone | DPanic | DConv (new : ty) (c : code).
Definition get_op_dest (t : ty) : dest :=
  if in_changes t then
    match new_to_old (opt_t t) with
    | None => DPanic
    | Some c => if code_ok c (opt_t (in_type t)) (opt_t t) then DConv (in_type t) c else DPanic
    end
  else DNone.
(** static_array.rs:188-196, len_op_dest *)
Definition len_op_dest (t : ty) : option ty := if in_changes t then Some (in_type t) else None.

(** The pass on a node; [None]: a panic *)
Definition pass_instr (i : instr) : option instr :=
  match i with
  | Load v t => Some (Load (fst (out_value v)) (out_type t))
  | Get t a x =>
      let t := out_type t in
      match get_op_dest t with
      | DNone => Some (Get t a x)
      | DPanic => None
      | DConv new c => Some (GetConv new t c a x)
      end
  | Len t a => let t := out_type t in Some (Len (match len_op_dest t with Some t => t | None => t end) a)
  | Unwrap t o => Some (Unwrap (out_type t) o)
  | GetConv n o c a x => Some (GetConv n o c a x)
  end.
(** static_array.rs:41-50 *)
Definition pass (p : list instr) : option (list instr) := all_some pass_instr p.
