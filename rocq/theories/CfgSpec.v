(** Vocabulary for the properties of the encoder's configuration.  Of the model only the data types
    are used (and [zero], [one_bit], [one_param], [add]). *)
From Coq Require Import List Arith Bool Permutation.
From Verif Require Import CfgModel.
Import ListNotations.

(** What a set answers: nothing if there would be no registers. *)
Inductive public : option count -> option count -> Prop :=
| pu_none : public None None
| pu_zero : public (Some zero) None
| pu_some : forall c, c <> zero -> public (Some c) (Some c).

(** The registers of something with parts: there are none if there would be parameters. *)
Inductive composite : option count -> option count -> Prop :=
| co_none : composite None None
| co_params : forall c, 0 < c_params c -> composite (Some c) None
| co_some : forall c, c_params c = 0 -> composite (Some c) (Some c).

(** ** The registers of a type, given the translators in the order in which they were added *)
Section Means.
Variable trs : list translator.

Inductive means : ty -> option count -> Prop :=
| m_param : forall e n args, e = float_ext \/ e = rotation_ext -> means (TExt e n args) (Some one_param)
| m_ext : forall e n args r r', e <> float_ext -> e <> rotation_ext ->
    answered trs e n args r -> composite r r' -> means (TExt e n args) r'
| m_void : means (TSum []) (Some zero)
| m_bool : means (TSum [[]; []]) (Some one_bit)
| m_tuple : forall ts r r', row_means ts r -> composite r r' -> means (TSum [ts]) r'
| m_sum : forall a b rows, a :: b :: rows <> [[]; []] -> means (TSum (a :: b :: rows)) None
| m_row : means TRow None
| m_other : forall n, means (TOther n) None
(** The registers of a row, one element after the other, until there is one that has none. *)
with row_means : list ty -> option count -> Prop :=
| rm_nil : row_means [] (Some zero)
| rm_none : forall t ts, means t None -> row_means (t :: ts) None
| rm_some : forall t ts c c', means t (Some c) -> row_means ts (Some c') -> row_means (t :: ts) (Some (add c c'))
| rm_rest : forall t ts c, means t (Some c) -> row_means ts None -> row_means (t :: ts) None
(** The first translator for the extension which knows the type. *)
with answered : list translator -> nat -> nat -> list ty -> option count -> Prop :=
| an_nil : forall e n args, answered [] e n args None
| an_skip : forall tr l e n args r, ~ In e (tr_exts tr) -> answered l e n args r -> answered (tr :: l) e n args r
| an_some : forall tr l e n args c, In e (tr_exts tr) -> replied (tr_type tr e n args) (Some c) ->
    answered (tr :: l) e n args (Some c)
| an_none : forall tr l e n args r, In e (tr_exts tr) -> replied (tr_type tr e n args) None ->
    answered l e n args r -> answered (tr :: l) e n args r
with replied : reply -> option count -> Prop :=
| re_done : forall r, replied (Done r) r
| re_ask : forall t k x y r, means t x -> public x y -> replied (k y) r -> replied (Ask t k) r.
End Means.

(** The answers in a sequence of calls: each for the translators added so far. *)
Inductive history : list translator -> list call -> list (option count) -> Prop :=
| hi_nil : forall trs, history trs [] []
| hi_add : forall trs tr l rs, history (trs ++ [tr]) l rs -> history trs (Add tr :: l) rs
| hi_query : forall trs t r r' l rs, means trs t r -> public r r' -> history trs l rs ->
    history trs (Query t :: l) (r' :: rs).

(** Translators which ask nothing, as all those of the repository. *)
Definition plain (tr : translator) : Prop := forall e n args, exists r, tr_type tr e n args = Done r.

(** ** Emitters *)
Definition specific (em : emitter) (e : nat) : Prop := exists es, em_exts em = Some es /\ In e es.
Definition general (em : emitter) : Prop := em_exts em = None.

(** The first in a list, among those with [P], for which [f] gives something. *)
Inductive first_of {A B : Type} (P : A -> Prop) (f : A -> option B) : list A -> option B -> Prop :=
| fo_nil : first_of P f [] None
| fo_skip : forall x l r, ~ P x -> first_of P f l r -> first_of P f (x :: l) r
| fo_none : forall x l r, P x -> f x = None -> first_of P f l r -> first_of P f (x :: l) r
| fo_some : forall x l y, P x -> f x = Some y -> first_of P f (x :: l) (Some y).

(** The extensions of a type. *)
Inductive mentions : ty -> nat -> Prop :=
| me_here : forall e n args, mentions (TExt e n args) e
| me_arg : forall e n args t e', In t args -> mentions t e' -> mentions (TExt e n args) e'
| me_row : forall rows row t e', In row rows -> In t row -> mentions t e' -> mentions (TSum rows) e'.

(** What the emitters make of a constant of an extension. *)
Definition encoded_as (ems : list emitter) (e n : nat) (args : list ty) (p : nat) (l : list leaf) : Prop :=
  first_of (fun em => general em \/ exists e', mentions (TExt e n args) e' /\ specific em e')
    (fun em => em_const em e n args p) ems (Some l).

(** ** Constants *)

(** The parts of a constant, in the order of the parts of its type. *)
Inductive spells (ems : list emitter) : value -> list leaf -> Prop :=
| sp_bool : forall tag, spells ems (VSum tag [[]; []] []) [LBit (tag =? 1)]
| sp_tuple : forall ts vals ls, spell_all ems vals ls -> spells ems (VSum 0 [ts] vals) ls
| sp_ext : forall e n args p l, encoded_as ems e n args p l -> spells ems (VExt e n args p) l
with spell_all (ems : list emitter) : list value -> list leaf -> Prop :=
| sa_nil : spell_all ems [] []
| sa_cons : forall v vs l ls, spells ems v l -> spell_all ems vs ls -> spell_all ems (v :: vs) (l ++ ls).

(** A bool, as a sum, is part of the constant. *)
Inductive has_bool : value -> Prop :=
| hb_bool : forall tag vals, has_bool (VSum tag [[]; []] vals)
| hb_part : forall tag rows vals v, In v vals -> has_bool v -> has_bool (VSum tag rows vals).

(** Tuples stand at the end of tuples only. *)
Inductive last_nested : value -> Prop :=
| ln_ext : forall e n args p, last_nested (VExt e n args p)
| ln_flat : forall tag rows vals, (forall v, In v vals -> exists e n args p, v = VExt e n args p) ->
    last_nested (VSum tag rows vals)
| ln_last : forall tag rows vals v, (forall v, In v vals -> exists e n args p, v = VExt e n args p) ->
    last_nested v -> last_nested (VSum tag rows (vals ++ [v])).

Definition bools (l : list leaf) : list bool := flat_map (fun x => match x with LBit b => [b] | LParam _ => [] end) l.
Definition angles (l : list leaf) : list nat := flat_map (fun x => match x with LBit _ => [] | LParam x => [x] end) l.

(** The encoder's state is in order: the bits not in use are different, and have been made. *)
Definition in_order (s : enc) : Prop := NoDup (e_unused s) /\ forall i, In i (e_unused s) -> i < e_next s.
(** A bit that may be in use. *)
Definition in_use (s : enc) (i : nat) : Prop := i < e_next s /\ ~ In i (e_unused s).

(** The values hold the leaves [l]: other bits than those in use before, each a different one,
    those for 1 and no others set by new commands; and the parameters. *)
Record hold (l : list leaf) (s : enc) (vs : tracked) (s' : enc) : Prop := {
  ho_bits : length (t_bits vs) = length (bools l);
  ho_distinct : NoDup (t_bits vs);
  ho_fresh : forall i, In i (t_bits vs) -> ~ in_use s i /\ in_use s' i;
  ho_kept : forall i, in_use s i -> in_use s' i;
  ho_set : exists new, e_set s' = e_set s ++ new /\
    (forall k i b, nth_error (t_bits vs) k = Some i -> nth_error (bools l) k = Some b -> (In i new <-> b = true)) /\
    forall i, In i new -> In i (t_bits vs);
  ho_params : map (fun i => nth_error (e_params s') i) (t_params vs) = map Some (angles l);
  ho_params_kept : exists new, e_params s' = e_params s ++ new;
  ho_order : in_order s'
}.

(** The type of a constant, and constants that fit their types. *)
Definition type_of (v : value) : ty :=
  match v with VSum _ rows _ => TSum rows | VExt e n args _ => TExt e n args | VFun => TOther 0 end.
Inductive typed : value -> Prop :=
| ty_sum : forall tag rows vals row, nth_error rows tag = Some row -> map type_of vals = row ->
    (forall v, In v vals -> typed v) -> typed (VSum tag rows vals)
| ty_ext : forall e n args p, typed (VExt e n args p)
| ty_fun : typed VFun.

Definition counted (l : list leaf) (c : count) : Prop :=
  c_qubits c = 0 /\ c_bits c = length (bools l) /\ c_params c = length (angles l).

(** The emitters make as many registers of a constant as the translators say for its type. *)
Definition agree (ems : list emitter) (trs : list translator) : Prop :=
  forall e n args p l c, encoded_as ems e n args p l -> means trs (TExt e n args) (Some c) -> counted l c.
