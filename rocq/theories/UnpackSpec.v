(** Vocabulary for the claims about containers (C44, C55): which values a type
    has, which elements a container holds, and which types the unpacker is meant
    for. Only the types and values of the model are used. *)

From Coq Require Import List Arith Bool.
From Verif Require Import UnpackModel.
Import ListNotations.

(** The values of a type.  Only a borrow array has missing elements. *)
Inductive fits : ty -> value -> Prop :=
| fits_qb n : fits Qb (VAtom n)
| fits_base k n : fits (Base k) (VAtom n)
| fits_tup ts vs : fits_row ts vs -> fits (Tup ts) (VTup vs)
| fits_none t : fits (Opt t) VNone
| fits_some t v : fits t v -> fits (Opt t) (VSome v)
| fits_arr k n t l : length l = n -> fits_cells k t l -> fits (Arr k n t) (VArr l)
with fits_row : list ty -> list value -> Prop :=
| fits_nil : fits_row [] []
| fits_cons t ts v vs : fits t v -> fits_row ts vs -> fits_row (t :: ts) (v :: vs)
with fits_cells : akind -> ty -> list (option value) -> Prop :=
| cells_nil k t : fits_cells k t []
| cells_some k t v l : fits t v -> fits_cells k t l -> fits_cells k t (Some v :: l)
| cells_hole t l : fits_cells ABorrow t l -> fits_cells ABorrow t (None :: l).

(** [t] holds elements: it is the element type, a tuple with a component that
    holds some, an array of options of elements, or an array of a type that
    holds some. *)
Inductive holds (elem : ty) : ty -> Prop :=
| holds_self : holds elem elem
| holds_tup ts t : In t ts -> holds elem t -> holds elem (Tup ts)
| holds_opts k n : holds elem (Arr k n (Opt elem))
| holds_arr k n t : holds elem t -> holds elem (Arr k n t).

(** The number of wires a value of type [t] is unpacked to: one for each element
    and one for each component without elements. *)
Inductive wires_of (elem : ty) : ty -> nat -> Prop :=
| wires_self : wires_of elem elem 1
| wires_none t : ~ holds elem t -> wires_of elem t 1
| wires_tup ts k : Tup ts <> elem -> holds elem (Tup ts) -> wires_row elem ts k ->
                   wires_of elem (Tup ts) k
| wires_opts k n : Arr k n (Opt elem) <> elem -> wires_of elem (Arr k n (Opt elem)) n
| wires_arr k n t c : Arr k n t <> elem -> t <> Opt elem -> holds elem t ->
                      wires_of elem t c -> wires_of elem (Arr k n t) (n * c)
with wires_row (elem : ty) : list ty -> nat -> Prop :=
| wrow_nil : wires_row elem [] 0
| wrow_cons t ts a b : wires_of elem t a -> wires_row elem ts b -> wires_row elem (t :: ts) (a + b).

(** The types the unpacker works for.  A type without elements is left alone,
    unless it is an option of qubits or of elements.  Arrays of options of
    elements are supported when the elements are qubits.  No array may have
    elements that are unpacked to no wire at all. *)
Inductive simple (elem : ty) : ty -> Prop :=
| simple_self : simple elem elem
| simple_none t : ~ holds elem t -> t <> Opt Qb -> t <> Opt elem -> simple elem t
| simple_tup ts : Forall (simple elem) ts -> simple elem (Tup ts)
| simple_opts k n : elem = Qb -> simple elem (Arr k n (Opt elem))
| simple_arr k n t c : simple elem t -> holds elem t -> wires_of elem t c -> c <> 0 -> simple elem (Arr k n t).

(** No option or cell that is to be unpacked is empty. *)
Inductive full (elem : ty) : ty -> value -> Prop :=
| full_self v : full elem elem v
| full_none t v : ~ holds elem t -> full elem t v
| full_tup ts vs : full_row elem ts vs -> full elem (Tup ts) (VTup vs)
| full_opts k n l : Forall (fun o => exists v, o = Some (VSome v)) l ->
                    full elem (Arr k n (Opt elem)) (VArr l)
| full_arr k n t l : t <> Opt elem -> full_cells elem t l -> full elem (Arr k n t) (VArr l)
with full_row (elem : ty) : list ty -> list value -> Prop :=
| frow_nil : full_row elem [] []
| frow_cons t ts v vs : full elem t v -> full_row elem ts vs -> full_row elem (t :: ts) (v :: vs)
with full_cells (elem : ty) : ty -> list (option value) -> Prop :=
| fcells_nil t : full_cells elem t []
| fcells_cons t v l : full elem t v -> full_cells elem t l -> full_cells elem t (Some v :: l).

(** The elements in a value, from left to right. *)
Inductive elements (elem : ty) : ty -> value -> list value -> Prop :=
| el_self v : elements elem elem v [v]
| el_none t v : ~ holds elem t -> elements elem t v []
| el_tup ts vs es : Tup ts <> elem -> holds elem (Tup ts) -> elements_row elem ts vs es -> elements elem (Tup ts) (VTup vs) es
| el_opts k n l vs : Arr k n (Opt elem) <> elem -> l = map (fun v => Some (VSome v)) vs ->
                     elements elem (Arr k n (Opt elem)) (VArr l) vs
| el_arr k n t l vs es : Arr k n t <> elem -> t <> Opt elem -> holds elem t ->
                         l = map Some vs -> elements_row elem (map (fun _ => t) vs) vs es ->
                         elements elem (Arr k n t) (VArr l) es
with elements_row (elem : ty) : list ty -> list value -> list value -> Prop :=
| elr_nil : elements_row elem [] [] []
| elr_cons t ts v vs a b : elements elem t v a -> elements_row elem ts vs b ->
                           elements_row elem (t :: ts) (v :: vs) (a ++ b).

(** Two values of a type that differ at most in their elements. *)
Inductive frame (elem : ty) : ty -> value -> value -> Prop :=
| fr_self v v' : frame elem elem v v'
| fr_none t v : ~ holds elem t -> frame elem t v v
| fr_tup ts vs vs' : frame_row elem ts vs vs' -> frame elem (Tup ts) (VTup vs) (VTup vs')
| fr_opts k n vs vs' : length vs = length vs' ->
    frame elem (Arr k n (Opt elem)) (VArr (map (fun v => Some (VSome v)) vs))
                                    (VArr (map (fun v => Some (VSome v)) vs'))
| fr_arr k n t vs vs' : frame_row elem (map (fun _ => t) vs) vs vs' ->
    frame elem (Arr k n t) (VArr (map Some vs)) (VArr (map Some vs'))
with frame_row (elem : ty) : list ty -> list value -> list value -> Prop :=
| frr_nil : frame_row elem [] [] []
| frr_cons t ts v vs v' vs' : frame elem t v v' -> frame_row elem ts vs vs' ->
                              frame_row elem (t :: ts) (v :: vs) (v' :: vs').

(** What a barrier may do to the qubits: return as many qubits as it is given. *)
Definition returns_qubits (barrier : list value -> list value) : Prop :=
  forall qs, Forall (fits Qb) qs ->
             Forall (fits Qb) (barrier qs) /\ length (barrier qs) = length qs.
