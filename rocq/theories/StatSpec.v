(** Vocabulary for static arrays of booleans: types of values and programs, and what programs do. *)
From Coq Require Import List Bool Arith.
From Verif Require Import StatModel.
Import ListNotations.

(** *** Types of values *)
Inductive has : val -> ty -> Prop :=
| has_bool : forall b, has (VBool b) TBool
| has_sum : forall tag vs rows row, nth_error rows tag = Some row -> Forall2 has vs row -> has (VSum tag vs rows) (TSum rows)
| has_static : forall e vs, Forall (fun v => has v e) vs -> has (VStatic e vs) (TStatic e)
| has_seq : forall k e vs, Forall (fun v => has v e) vs -> has (VSeq k e vs) (TSeq k e)
| has_plain : forall k n, has (VPlain k n) (TPlain k).

(** The same, whatever the types written in the value are. *)
Inductive fits : val -> ty -> Prop :=
| fit_bool : forall b, fits (VBool b) TBool
| fit_sum : forall tag vs rows' rows row, nth_error rows tag = Some row -> Forall2 fits vs row -> fits (VSum tag vs rows') (TSum rows)
| fit_static : forall e' e vs, Forall (fun v => fits v e) vs -> fits (VStatic e' vs) (TStatic e)
| fit_seq : forall k e' e vs, Forall (fun v => fits v e) vs -> fits (VSeq k e' vs) (TSeq k e)
| fit_plain : forall k n, fits (VPlain k n) (TPlain k).

(** Where tket.bool occurs. *)
Inductive bool_in : ty -> Prop :=
| bi_bool : bool_in TBool
| bi_sum : forall rows row t, In row rows -> In t row -> bool_in t -> bool_in (TSum rows)
| bi_static : forall t, bool_in t -> bool_in (TStatic t)
| bi_seq : forall k t, bool_in t -> bool_in (TSeq k t)
| bi_ins : forall ins outs t, In t ins -> bool_in t -> bool_in (TFun ins outs)
| bi_outs : forall ins outs t, In t outs -> bool_in t -> bool_in (TFun ins outs).
(** The same, not counting what is in static arrays. *)
Inductive bool_out : ty -> Prop :=
| bo_bool : bool_out TBool
| bo_sum : forall rows row t, In row rows -> In t row -> bool_out t -> bool_out (TSum rows)
| bo_seq : forall k t, bool_out t -> bool_out (TSeq k t)
| bo_ins : forall ins outs t, In t ins -> bool_out t -> bool_out (TFun ins outs)
| bo_outs : forall ins outs t, In t outs -> bool_out t -> bool_out (TFun ins outs).
(** Types without static arrays of tket.bool, however nested. *)
Inductive clean : ty -> Prop :=
| c_bool : clean TBool
| c_sum : forall rows, (forall row t, In row rows -> In t row -> clean t) -> clean (TSum rows)
| c_static : forall t, clean t -> ~ bool_in t -> clean (TStatic t)
| c_seq : forall k t, clean t -> clean (TSeq k t)
| c_plain : forall k, clean (TPlain k)
| c_fun : forall ins outs, (forall t, In t (ins ++ outs) -> clean t) -> clean (TFun ins outs).

(** The type with tket.bool replaced by two-way sums inside static arrays, and nowhere else. *)
Inductive lowered : bool -> ty -> ty -> Prop :=
| l_inside : lowered true TBool (TSum [[]; []])
| l_outside : lowered false TBool TBool
| l_sum : forall b rows rows', Forall2 (Forall2 (lowered b)) rows rows' -> lowered b (TSum rows) (TSum rows')
| l_static : forall b t t', lowered true t t' -> lowered b (TStatic t) (TStatic t')
| l_seq : forall b k t t', lowered b t t' -> lowered b (TSeq k t) (TSeq k t')
| l_plain : forall b k, lowered b (TPlain k) (TPlain k)
| l_fun : forall b ins outs ins' outs', Forall2 (lowered b) ins ins' -> Forall2 (lowered b) outs outs' -> lowered b (TFun ins outs) (TFun ins' outs').

(** Static arrays with booleans in their type have elements. *)
Inductive filled : val -> Prop :=
| f_bool : forall b, filled (VBool b)
| f_sum : forall tag vs rows, Forall filled vs -> filled (VSum tag vs rows)
| f_static : forall e vs, (bool_in e -> vs <> []) -> Forall filled vs -> filled (VStatic e vs)
| f_seq : forall k e vs, Forall filled vs -> filled (VSeq k e vs)
| f_plain : forall k n, filled (VPlain k n).

(** Element types for which [get] can be replaced: beside booleans there must be no functions, and no arrays or lists of
    booleans. *)
Inductive convertible : ty -> Prop :=
| v_same : forall t, ~ bool_out t -> (forall ins outs, t <> TFun ins outs) -> convertible t
| v_bool : convertible TBool
| v_sum : forall rows, (forall row t, In row rows -> In t row -> convertible t) -> convertible (TSum rows).
Definition supported (i : instr) : Prop := match i with Get t _ _ => ~ bool_out t \/ convertible t | _ => True end.
(** What is in programs before the pass, and the constants they load. *)
Definition source_instr (i : instr) : Prop := match i with GetConv _ _ _ _ _ => False | _ => True end.
Definition filled_instr (i : instr) : Prop := match i with Load v _ => filled v | _ => True end.

(** *** What a value is, however it is represented *)
Inductive data : Type := DSum (tag : nat) (ds : list data) | DList (ds : list data) | DAtom (k n : nat).
Fixpoint means (v : val) : data :=
  match v with
  | VBool b => DSum (if b then 1 else 0) []
  | VSum tag vs _ => DSum tag (map means vs)
  | VStatic _ vs => DList (map means vs)
  | VSeq _ _ vs => DList (map means vs)
  | VPlain k n => DAtom k n
  end.

(** *** Types of programs *)
Inductive code_typed : code -> ty -> ty -> Prop :=
| ct_keep : forall t, code_typed Keep t t
| ct_opaque : code_typed MakeOpaque bit_t TBool
| ct_cases : forall cs news olds,
    length cs = length news -> length cs = length olds ->
    (forall i c n o, nth_error cs i = Some c -> nth_error news i = Some n -> nth_error olds i = Some o ->
       length c = length n /\ length c = length o /\
       forall j x y z, nth_error c j = Some x -> nth_error n j = Some y -> nth_error o j = Some z -> code_typed x y z) ->
    code_typed (Cases cs olds) (TSum news) (TSum olds).
Inductive typed_instr (G : list ty) : instr -> ty -> Prop :=
| t_load : forall v t, has v t -> typed_instr G (Load v t) t
| t_get : forall t a x, nth_error G a = Some (TStatic t) -> nth_error G x = Some (TPlain 0) -> typed_instr G (Get t a x) (opt_t t)
| t_len : forall t a, nth_error G a = Some (TStatic t) -> typed_instr G (Len t a) (TPlain 0)
| t_unwrap : forall t o, nth_error G o = Some (opt_t t) -> typed_instr G (Unwrap t o) t
| t_conv : forall new old c a x, nth_error G a = Some (TStatic new) -> nth_error G x = Some (TPlain 0) ->
    code_typed c (opt_t new) (opt_t old) -> typed_instr G (GetConv new old c a x) (opt_t old).
Fixpoint typed (G : list ty) (p : list instr) (G2 : list ty) : Prop :=
  match p with
  | [] => G = G2
  | i :: p => exists t, typed_instr G i t /\ typed (G ++ [t]) p G2
  end.

(** *** Runs *)
Inductive outcome : Type := Done (env : list val) | Panics | Stuck.
Definition none_v (t : ty) : val := VSum 0 [] [[]; [t]].
Definition some_v (t : ty) (v : val) : val := VSum 1 [v] [[]; [t]].
Definition get_elem (t : ty) (arr idx : option val) : option val :=
  match arr, idx with
  | Some (VStatic _ vs), Some (VPlain 0 n) => Some (match nth_error vs n with Some v => some_v t v | None => none_v t end)
  | _, _ => None
  end.
Definition zip_some {X Y Z} (f : X -> Y -> option Z) : list X -> list Y -> option (list Z) :=
  fix go l r :=
    match l, r with
    | [], [] => Some []
    | x :: l, y :: r => match f x y, go l r with Some z, Some s => Some (z :: s) | _, _ => None end
    | _, _ => None
    end.
(** Converts a value. *)
Fixpoint convert (c : code) (v : val) {struct c} : option val :=
  match c, v with
  | Keep, v => Some v
  | MakeOpaque, VSum tag [] _ => Some (VBool (Nat.eqb tag 1))
  | Cases cs rows, VSum tag vs _ =>
      match (fix nth cs tag :=
        match cs, tag with
        | c :: _, 0 => zip_some convert c vs
        | _ :: cs, S tag => nth cs tag
        | [], _ => None
        end) cs tag with
      | Some vs => Some (VSum tag vs rows)
      | None => None
      end
  | _, _ => None
  end.
Definition step (env : list val) (i : instr) : outcome :=
  let give o := match o with Some v => Done (env ++ [v]) | None => Stuck end in
  match i with
  | Load v _ => give (Some v)
  | Get t a x => give (get_elem t (nth_error env a) (nth_error env x))
  | Len _ a => give (match nth_error env a with Some (VStatic _ vs) => Some (VPlain 0 (length vs)) | _ => None end)
  | Unwrap _ o => match nth_error env o with Some (VSum 1 [v] _) => give (Some v) | Some (VSum 0 [] _) => Panics | _ => Stuck end
  | GetConv new _ c a x => give (match get_elem new (nth_error env a) (nth_error env x) with Some v => convert c v | None => None end)
  end.
Fixpoint run (env : list val) (p : list instr) : outcome :=
  match p with
  | [] => Done env
  | i :: p => match step env i with Done env => run env p | o => o end
  end.
(** Two runs that end in the same way, with the same values in different representations. *)
Definition same_end (o o' : outcome) : Prop :=
  match o, o' with
  | Done e, Done e' => map means e' = map means e
  | Panics, Panics => True
  | _, _ => False
  end.
