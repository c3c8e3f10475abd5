(** Properties of results: arguments of the operations, arrays that are printed. *)
From Coq Require Import String List Arith Bool NArith Lia.
From Verif Require Import AresModel AresSpec AresProofs AresMain.
Import ListNotations.
Local Open Scope N_scope.

(** ** C97: arguments and operations are translated into each other *)

(** Arguments that fit the parameters which the extension declares for an operation are accepted;
    the operation is that one, it has these arguments again, and the constructors make it. *)
Theorem C97_arguments : forall d args,
  all_params d = documented d
  /\ (Forall2 fits (all_params d) args ->
      exists o, instantiate d args = Some o /\ r_def o = d /\ type_args o = args /\ made 7 o).
Proof. exact C97_arguments_pf. Qed.

(** Every operation that the constructors make comes back from its arguments, for all widths of
    the type u8. *)
Theorem C97_operations : forall o, made 256 o ->
  instantiate (r_def o) (type_args o) = Some o.
Proof. exact C97_operations_pf. Qed.

(** Two operations that are made, with the same name and the same arguments, are the same. *)
Theorem C97_injective : forall o o', made 256 o -> made 256 o' ->
  r_def o = r_def o' -> type_args o = type_args o' -> o = o'.
Proof. exact C97_injective_pf. Qed.

(** Whatever is accepted has a tag, which is kept, and at most two numbers behind it. *)
Theorem C97_shape : forall d args o, instantiate d args = Some o ->
  exists ns, args = TStr (r_tag o) :: map TNat ns /\ (length ns <= 2)%nat.
Proof. exact C97_shape_pf. Qed.

(** An array operation has the given length, whether it was made from a single result or from an
    array of another length, and the same width. *)
Theorem C97_array : forall o n, made 256 o ->
  (forall t d s, o = {| r_tag := t; r_def := d; r_args := RSimple s |} ->
     exists d', array_op o n = {| r_tag := t; r_def := d'; r_args := RArray s n |}
                /\ exists f k, reports d' f k)
  /\ (forall t d s k, o = {| r_tag := t; r_def := d; r_args := RArray s k |} ->
     array_op o n = {| r_tag := t; r_def := d; r_args := RArray s n |}).
Proof. exact C97_array_pf. Qed.

(** False without "that fit": one argument too many makes an operation of another name out of
    result_bool, result_array_bool drops an argument, and widths are taken modulo 256, so that
    result_int with 262 reports int<6>. *)
Theorem C97_unchecked_refuted : forall t n w,
  (exists o, instantiate DBool [TStr t; TNat n] = Some o /\ r_def o = DArrBool)
  /\ (exists o, instantiate DArrBool [TStr t; TNat n; TNat w] = Some o
                /\ type_args o = [TStr t; TNat n])
  /\ (exists o, instantiate DInt [TStr t; TNat 262] = Some o /\ type_args o = [TStr t; TNat 6]).
Proof. exact C97_unchecked_refuted_pf. Qed.

(** ** C98: arrays are printed as they are *)

(** The elements that the runtime is given are those of the array, in order, with a mask of
    zeros, for both lowerings, all lengths below 2^32 and all offsets; the memory that was there
    is unchanged.  Missing: integers of less than 64 bits (see below). *)
Theorem C98_printed_partial : forall o s tag vals v m,
  made 7 o -> r_args o = RArray s (N.of_nat (length vals)) ->
  (s = SBasic \/ s = SInt 6) ->
  N.of_nat (length vals) < 4294967296 ->
  exists f k, reports (r_def o) f k
    /\ (holds m k vals v -> in_range k vals ->
        exists new, emit_print o tag v m
                    = Done (m ++ new) (Printed f tag vals (repeat 0 (length vals)))).
Proof. exact C98_printed_partial_pf. Qed.

(** The same for the qubits of a state, which are given back. *)
Theorem C98_state : forall tag vals v m,
  N.of_nat (length vals) < 4294967296 -> holds m 8 vals v -> in_range 8 vals ->
  exists new, emit_state tag (N.of_nat (length vals)) v m
              = (Done (m ++ new) (Printed PState tag vals (repeat 0 (length vals))), v)
              /\ holds (m ++ new) 8 vals v.
Proof. exact C98_state_pf. Qed.

(** The code is refused exactly for arrays of 2^32 elements or more. *)
Theorem C98_length : forall o s n tag v m,
  made 7 o -> r_args o = RArray s n ->
  (emit_print o tag v m = Refused <-> 4294967296 <= n).
Proof. exact C98_length_pf. Qed.

(** False for narrow integers: arrays of int<0> to int<5>, as they are made, are read beyond
    their end, for all lengths but zero. *)
Theorem C98_narrow_refuted : forall o w tag vals v m,
  made 7 o -> r_args o = RArray (SInt w) (N.of_nat (length vals)) -> w < 6 ->
  vals <> [] -> N.of_nat (length vals) < 4294967296 ->
  holds_exact m (esize (EInt w)) vals v ->
  emit_print o tag v m = Undefined.
Proof. exact C98_narrow_refuted_pf. Qed.

(** And where there is memory behind the array, the first element that is printed for int<5> is
    made of the first two elements. *)
Theorem C98_narrow_values_refuted : forall o tag a b rest post i m,
  made 7 o -> r_args o = RArray (SInt 5) (N.of_nat (length (a :: b :: rest))) ->
  N.of_nat (length (a :: b :: rest)) < 4294967296 ->
  in_range 4 (a :: b :: rest) ->
  nth_error m i = Some (BBytes true (flat_map (le 4) (a :: b :: rest) ++ post)) ->
  (4 * length (a :: b :: rest) <= length post)%nat ->
  exists m' f others mask,
    emit_print o tag (AHeap (i, 0%nat) 0) m
    = Done m' (Printed f tag (a + 4294967296 * b :: others) mask).
Proof. exact C98_narrow_values_refuted_pf. Qed.

(** An array that is turned into a pointer and back has the same elements, in both lowerings. *)
Theorem C98_pointer_inverse : forall low m k vals v,
  lowered low v -> holds m k vals v -> in_range k vals ->
  exists new p v',
    array_to_ptr m k v = Some (m ++ new, p)
    /\ array_from_ptr low (m ++ new) k p (length vals) = Some v'
    /\ lowered low v' /\ holds (m ++ new) k vals v'.
Proof. exact C98_pointer_inverse_pf. Qed.

(** "The stack that an operation needs does not depend on how often it runs" is false: the space
    is reserved where the operation stands, so a loop takes more than any bound. *)
Theorem C98_stack_refuted : forall o s tag vals v m f k bound,
  made 7 o -> r_args o = RArray s (N.of_nat (length vals)) ->
  (s = SBasic \/ s = SInt 6) -> N.of_nat (length vals) < 4294967296 ->
  reports (r_def o) f k -> holds m k vals v -> in_range k vals ->
  exists n m', emit_loop n o tag v m = Some m' /\ (bound < stack_bytes m')%nat.
Proof. exact C98_stack_refuted_pf. Qed.

(** ** Instances: the hypotheses are met *)
Definition t0 : string := "a"%string.
Definition arr_int (w : N) (n : N) : rop :=
  {| r_tag := t0; r_def := DArrInt; r_args := RArray (SInt w) n |}.

Example arguments_instance :
  Forall2 fits (all_params DArrInt) [TStr t0; TNat 3; TNat 6]
  /\ instantiate DArrInt [TStr t0; TNat 3; TNat 6] = Some (arr_int 6 3).
Proof. split; [ | reflexivity ]. repeat constructor. Qed.

Example made_instance : forall w, w < 7 -> made 7 (arr_int w 3).
Proof. intros w h. apply (made_array 7 (new_int t0 w DInt) 3). apply made_int. exact h. Qed.

(** Three integers of 64 bits at an offset of one. *)
Definition m0 : mem := [BBytes false [9]; BBytes true (flat_map (le 8) [77; 5; 300; 18446744073709551615])].

Example printed_instance :
  holds m0 8 [5; 300; 18446744073709551615] (AHeap (1, 0)%nat 1)
  /\ in_range 8 [5; 300; 18446744073709551615]
  /\ exists m', emit_print (arr_int 6 3) 0 (AHeap (1, 0)%nat 1) m0
                = Done m' (Printed PIntArr 0 [5; 300; 18446744073709551615] [0; 0; 0]).
Proof.
  split; [ | split ].
  - apply (holds_heap _ _ _ _ _ _ (le 8 77) []); [ rewrite app_nil_r | ]; reflexivity.
  - repeat constructor.
  - eexists. vm_compute. reflexivity.
Qed.

Example narrow_instance :
  holds_exact [BBytes true (flat_map (le 4) [1; 2])] (esize (EInt 5)) [1; 2] (AHeap (0, 0)%nat 0)
  /\ emit_print (arr_int 5 2) 0 (AHeap (0, 0)%nat 0) [BBytes true (flat_map (le 4) [1; 2])]
     = Undefined.
Proof. split; [ constructor | ]; reflexivity. Qed.

Example narrow_values_instance :
  exists m', emit_print (arr_int 5 2) 0 (AHeap (0, 0)%nat 0)
               [BBytes true (flat_map (le 4) [1; 2] ++ repeat 0 8)]
             = Done m' (Printed PIntArr 0 [8589934593; 0] [0; 0]).
Proof. eexists. vm_compute. reflexivity. Qed.

Example bool_instance :
  exists m', emit_print (array_op (new_basic t0 DBool) 3) 0 (AStack [1; 0; 1]) m0
             = Done m' (Printed PBoolArr 0 [1; 0; 1] [0; 0; 0]).
Proof. eexists. vm_compute. reflexivity. Qed.

Example reports_instance : reports (r_def (arr_int 6 3)) PIntArr 8.
Proof. constructor. Qed.

Print Assumptions C97_arguments.
Print Assumptions C97_operations.
Print Assumptions C97_injective.
Print Assumptions C97_shape.
Print Assumptions C97_array.
Print Assumptions C97_unchecked_refuted.
Print Assumptions C98_printed_partial.
Print Assumptions C98_state.
Print Assumptions C98_length.
Print Assumptions C98_narrow_refuted.
Print Assumptions C98_narrow_values_refuted.
Print Assumptions C98_pointer_inverse.
Print Assumptions C98_stack_refuted.
