(** Properties of the modification of operations on arrays and of other operations, C90 and C91. *)
From Coq Require Import List Bool Arith Lia Permutation.
From Verif Require Import ResolveModel ResolveSpec UnpackModel UnpackSpec ArrModel ArrSpec ArrProofs ArrMain.
Import ListNotations.

(** ** C90. Under a dagger, making and unpacking arrays of what holds qubits, and the conversions of such arrays, are replaced
    by their inverses, with all ports of the same types and reversed; two daggers give the operation back. *)
Theorem C90_arrays_partial :
  forall k b to n t controls, holds Qb t ->
    forall e, e = EArr k ANew n t \/ e = EArr k AUnpack n t \/ e = EConv b to n t ->
    exists new corr, modify_ext true controls e = (Placed new corr, controls) /\ stands_in true e new corr /\
      (forall ins outs, does e ins outs <-> does new outs ins) /\
      exists corr', modify_ext true controls new = (Placed e corr', controls).
Proof. exact C90_arrays_partial_pf. Qed.

(** Operations the resolver knows nothing about are placed as they are; under a dagger this fits when their quantum inputs and
    outputs have the same types in the same groups. *)
Theorem C90_others_partial :
  forall label ins outs controls, reversible ins outs ->
    exists corr, modify_ext true controls (EOther label ins outs) = (Placed (EOther label ins outs) corr, controls) /\
      stands_in true (EOther label ins outs) (EOther label ins outs) corr.
Proof. exact C90_others_partial_pf. Qed.

(** A swap is replaced by a swap with its ports reversed, which it does not have. *)
Theorem C90_swap_refuted :
  forall k n t controls, exists corr, modify_ext true controls (EArr k ASwap n t) = (Placed (EArr k ASwap n t) corr, controls) /\
    In ((Incoming, 1), (Outgoing, 1)) corr /\ at_port (EArr k ASwap n t) (Incoming, 1) = Some (Val usize) /\
    at_port (EArr k ASwap n t) (Outgoing, 1) = Some Order /\
    In ((Incoming, 2), (Outgoing, 2)) corr /\ at_port (EArr k ASwap n t) (Outgoing, 2) = None /\
    ~ stands_in true (EArr k ASwap n t) (EArr k ASwap n t) corr.
Proof. exact C90_swap_refuted_pf. Qed.

(** Arrays of classical values are reversed too: the input can then not be joined to the output it comes from. *)
Theorem C90_classical_refuted :
  forall k n t controls, ~ holds Qb t -> 0 < n ->
    exists new corr, modify_ext true controls (EArr k ANew n t) = (Placed new corr, controls) /\
      ~ stands_in true (EArr k ANew n t) new corr /\
      In ((Incoming, 0), (Outgoing, 0)) corr /\ forall i, connect (Outgoing, 0) (Outgoing, i) = None.
Proof. exact C90_classical_refuted_pf. Qed.

(** The other operations on arrays panic under a dagger, also on classical arrays. *)
Theorem C90_panics_refuted :
  forall k o n t controls, ~ In o [ANew; AUnpack; ASwap] -> modify_ext true controls (EArr k o n t) = (Panicked, controls).
Proof. exact C90_panics_refuted_pf. Qed.

(** ** C91. Without a dagger the operation is placed as it is, each port standing for itself. *)
Theorem C91_placed_partial :
  forall controls e, exists corr, modify_ext false controls e = (Placed e corr, controls) /\ stands_in false e e corr /\
    forall p q, In (p, q) corr -> q = p.
Proof. exact C91_placed_partial_pf. Qed.

(** So an unknown operation on qubits is done whatever the controls are: the new node has no ports for them, and their wires go
    past it. *)
Theorem C91_uncontrolled_refuted :
  forall label ins outs controls, In Qb ins -> controls <> [] -> exists new corr,
    modify_ext false controls (EOther label ins outs) = (Placed new corr, controls) /\
    rows new <> (repeat Qb (length controls) ++ ins, repeat Qb (length controls) ++ outs).
Proof. exact C91_uncontrolled_refuted_pf. Qed.

(** ** Instances *)
(** Three pairs of a qubit and a number in a borrow array. *)
Example inst_pairs : exists new corr,
  modify_ext true [(0, 0)] (EArr ABorrow ANew 3 (Tup [Qb; Base 4])) = (Placed new corr, [(0, 0)]) /\
  stands_in true (EArr ABorrow ANew 3 (Tup [Qb; Base 4])) new corr /\ rows new = ([Arr ABorrow 3 (Tup [Qb; Base 4])], repeat (Tup [Qb; Base 4]) 3).
Proof.
  assert (HQ : holds Qb (Tup [Qb; Base 4])) by (apply (holds_tup Qb _ Qb); [simpl; auto|constructor]).
  destruct (C90_arrays_partial ABorrow true true 3 _ [(0, 0)] HQ _ (or_introl eq_refl)) as (new & corr & A & B & _).
  exists new, corr. split; [exact A|]. split; [exact B|]. cbn in A. injection A as <- _. reflexivity.
Qed.
Example inst_does : does (EArr AStd AUnpack 2 Qb) [Array_ [Qubit_ 5; Qubit_ 6]] [Qubit_ 5; Qubit_ 6].
Proof. split; reflexivity. Qed.
(** A classical operation, and one with a qubit and an angle. *)
Example inst_reversible : reversible [Base 1; Base 2] [Base 3] /\ reversible [Qb; Base 7] [Qb].
Proof. split; [left; reflexivity|]. right. exists [Base 7]. split; [reflexivity|]. intros t [<-|[]]. reflexivity. Qed.
Example inst_classical : ~ holds Qb (Base 3) /\ modify_ext true [] (EArr AVal AGet 2 (Base 3)) = (Panicked, []).
Proof. split; [|reflexivity]. intros K. inversion K. Qed.

Print Assumptions C90_arrays_partial.
Print Assumptions C90_others_partial.
Print Assumptions C90_swap_refuted.
Print Assumptions C90_classical_refuted.
Print Assumptions C90_panics_refuted.
Print Assumptions C91_placed_partial.
Print Assumptions C91_uncontrolled_refuted.
