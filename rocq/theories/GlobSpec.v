(** Vocabulary for the constant strings of [GlobModel]. *)
From Coq Require Import List Arith Bool ZArith String.
From Verif Require Import GlobModel.
Import ListNotations.

(** A string in memory: its length in one byte, then the string. *)
Definition counted (s : bytes) : bytes := Z.of_nat (List.length s) :: s.

(** What a module has at a name. *)
Definition holds (m : globals) (g s : bytes) : Prop := get_global m g = Some (Some s).
(** Everything in [m] is in [m'] unchanged. *)
Definition keeps (m m' : globals) : Prop :=
  forall g v, get_global m g = Some v -> get_global m' g = Some v.

(** A request for a constant string: the string, the prefix of its symbol and the prefix of the
    string. *)
Definition request := (bytes * bytes * bytes)%type.
Definition text (r : request) : bytes := let '(s, _, p) := r in p ++ s.

(** The requests of a compilation, one after the other. *)
Fixpoint emit_all (hash take10 : bytes -> bytes) (m : globals) (rs : list request)
  : emitted (globals * list bytes) :=
  match rs with
  | [] => EOk (m, [])
  | (s, y, p) :: rs =>
      match emit_global_string hash take10 m s y p with
      | EOk (m, g) =>
          match emit_all hash take10 m rs with
          | EOk (m, gs) => EOk (m, g :: gs)
          | EErr => EErr
          | EPanic => EPanic
          end
      | EErr => EErr
      | EPanic => EPanic
      end
  end.

(** The string with which a result or a state appears. *)
Definition kind_text (k : rkind) : string :=
  match k with
  | KBool => "USER:BOOL:" | KInt | KUInt => "USER:INT:" | KF64 => "USER:FLOAT:"
  | KArrBool => "USER:BOOLARR:" | KArrInt | KArrUInt => "USER:INTARR:" | KArrF64 => "USER:FLOATARR:"
  end.
(** [None]: the state of the machine. *)
Definition tag_text (k : option rkind) (tag : bytes) : bytes :=
  of_string (match k with Some k => kind_text k | None => "USER:STATE:" end) ++ tag.

(** The same kind up to the sign of the numbers. *)
Definition same_kind (k k' : option rkind) : Prop :=
  k = k' \/ (In k [Some KInt; Some KUInt] /\ In k' [Some KInt; Some KUInt])
  \/ (In k [Some KArrInt; Some KArrUInt] /\ In k' [Some KArrInt; Some KArrUInt]).

(** The tags of a compilation, one after the other: results and states. *)
Fixpoint tag_all (hash take10 : bytes -> bytes) (m : globals) (rs : list (option rkind * bytes))
  : emitted (globals * list bytes) :=
  match rs with
  | [] => EOk (m, [])
  | (k, tag) :: rs =>
      match (match k with
             | Some k => result_tag hash take10 m k tag
             | None => state_tag hash take10 m tag
             end) with
      | EOk (m, g) =>
          match tag_all hash take10 m rs with
          | EOk (m, gs) => EOk (m, g :: gs)
          | EErr => EErr
          | EPanic => EPanic
          end
      | EErr => EErr
      | EPanic => EPanic
      end
  end.
