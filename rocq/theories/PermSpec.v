(** Vocabulary for registers and the order of outputs. *)
From Coq Require Import List ZArith String.
From Verif Require Import PermModel.
Import ListNotations.

(** The qubit register number [i]. *)
Definition q (i : Z) : reg := {| rname := "q"; rindex := [i] |}.
Definition c (i : Z) : reg := {| rname := "c"; rindex := [i] |}.

(** [room name l n]: the registers called [name] in [l] have an index, and [n] more indices fit after the
    largest in 16 bits. *)
Definition room (name : string) (l : list reg) (n : nat) : Prop :=
  (Z.of_nat n < 65536)%Z /\
  forall r, In r l -> rname r = name -> exists i rest, rindex r = i :: rest /\ (0 <= i)%Z /\ (i + Z.of_nat n + 1 < 65536)%Z.

(** pytket's implicit permutation: what is in register [r] in the end is the output called [d]. [outs] are the
    registers at the outputs, in order, and [declared] the names of the outputs. *)
Definition describes (perm : list (reg * reg)) (outs declared : list reg) : Prop :=
  forall k r d, nth_error outs k = Some r -> nth_error declared k = Some d -> In (r, d) perm.

(** The reverse: reading the outputs [declared] gives the registers [l]. *)
Definition reorders (perm : list (reg * reg)) (declared l : list reg) : Prop :=
  List.length l = List.length declared /\
  (forall k d r, nth_error declared k = Some d -> In (r, d) perm -> nth_error l k = Some r) /\
  (forall k d, nth_error declared k = Some d -> ~ In d (map snd perm) -> nth_error l k = Some d).

(** A permutation of some of the registers. *)
Definition permutes (perm : list (reg * reg)) (registers : list reg) : Prop :=
  NoDup (map fst perm) /\ NoDup (map snd perm) /\ (forall r, In r (map fst perm) <-> In r (map snd perm)) /\ incl (map fst perm) registers.
