(** Properties of the pass on static arrays of booleans, C83 to C85. *)
From Coq Require Import List Bool Arith Lia.
From Verif Require Import StatModel StatSpec StatProofs StatProofs2 StatMain.
Import ListNotations.

(** ** C83. After the pass a well-typed program is well-typed: each of its types is the old one with tket.bool replaced
    inside static arrays and nowhere else, and no static array holds a tket.bool any more. *)
Theorem C83_types_partial :
  forall G p G2 q,
    typed G p G2 -> Forall source_instr p -> Forall filled_instr p -> pass p = Some q ->
    exists G' G2', Forall2 (lowered false) G G' /\ Forall2 (lowered false) G2 G2' /\ typed G' q G2' /\ Forall clean G' /\ Forall clean G2'.
Proof. exact C83_types_partial_pf. Qed.

(** The types after the pass are determined by this. *)
Theorem C83_unique :
  forall t u v, lowered false t u -> lowered false t v -> u = v /\ clean u.
Proof. exact C83_unique_pf. Qed.

(** A constant array without elements keeps its old type, whatever the type of its elements: the program after the pass has
    no types. *)
Theorem C83_types_refuted :
  exists p G2 q, typed [] p G2 /\ Forall source_instr p /\ Forall supported p /\ pass p = Some q /\ ~ exists G2', typed [] q G2'.
Proof. exact C83_types_refuted_pf. Qed.

(** ** C84. The pass keeps what programs do: both programs end with the same values or both panic, from any inputs with the
    same meaning, and neither gets stuck. *)
Theorem C84_meaning :
  forall G p G2 q env env' G',
    typed G p G2 -> Forall source_instr p -> pass p = Some q ->
    Forall2 (lowered false) G G' -> Forall2 has env G -> Forall2 has env' G' -> map means env' = map means env ->
    same_end (run env p) (run env' q) /\ forall e, run env p = Done e -> Forall2 has e G2.
Proof. exact C84_meaning_pf. Qed.

(** The values after the pass have the new types. *)
Theorem C84_types_partial :
  forall G p G2 q env G' G2',
    typed G p G2 -> Forall source_instr p -> Forall filled_instr p -> pass p = Some q ->
    Forall2 (lowered false) G G' -> Forall2 (lowered false) G2 G2' -> Forall2 has env G' ->
    match run env q with Done e => Forall2 has e G2' | Panics => True | Stuck => False end.
Proof. exact C84_types_partial_pf. Qed.

(** What a constant is does not change; and its type and what it is determine the constant. *)
Theorem C84_constants :
  (forall v, means (fst (out_value v)) = means v) /\
  (forall v t u, has v t -> filled v -> lowered false t u -> has (fst (out_value v)) u) /\
  (forall v w t, has v t -> has w t -> means v = means w -> v = w).
Proof. exact C84_constants_pf. Qed.

(** The conversion of elements to their old type always works and keeps the value. *)
Theorem C84_convert :
  forall t u v new c w, get_op_dest v = DConv new c -> lowered true t u -> lowered false t v -> has w (opt_t u) ->
    new = u /\ exists w', convert c w = Some w' /\ has w' (opt_t v) /\ means w' = means w.
Proof. exact C84_convert_pf. Qed.

(** ** C85. The pass succeeds exactly on programs that take no elements with functions, or with lists or arrays of booleans,
    beside booleans. *)
Theorem C85_total_partial :
  forall p, pass p <> None <-> Forall supported p.
Proof. exact C85_total_partial_pf. Qed.

(** It panics on a well-typed program that takes a pair of a boolean and a function from an array, and on one that takes a
    list of booleans. *)
Theorem C85_total_refuted :
  exists G p G2 r H2, typed G p G2 /\ Forall source_instr p /\ Forall filled_instr p /\ pass p = None /\
    typed [TStatic (TSeq 1 TBool); TPlain 0] r H2 /\ Forall source_instr r /\ Forall filled_instr r /\ pass r = None.
Proof. exact C85_total_refuted_pf. Qed.

(** ** Instances *)
(** The three arrays of the code's tests: one boolean; one array of one boolean; one sum. *)
Definition one_bool : val := VStatic TBool [VBool true].
Definition sum_t : ty := TSum [[]; [TBool]; [bit_t]].
Definition one_sum : val := VStatic sum_t [VSum 2 [bit_v false] [[]; [TBool]; [bit_t]]].
Definition prog (v : val) (t : ty) : list instr := [Load v (TStatic t); Load (VPlain 0 0) (TPlain 0); Get t 0 1; Len t 0].
Ltac typ := unfold one_bool, one_sum, bit_v, bit_t, bit_rows; repeat (match goal with
  | |- typed _ [] _ => reflexivity
  | |- typed _ (_ :: _) _ => eexists; split
  | |- typed_instr _ _ _ => econstructor
  | |- has (VSum _ _ _) _ => eapply has_sum; [reflexivity|]
  | |- has _ _ => constructor
  | |- Forall _ _ => constructor
  | |- Forall2 _ _ _ => constructor
  | |- nth_error _ _ = _ => reflexivity
  | |- source_instr _ => exact I
  | |- filled_instr _ => simpl; auto
  | |- filled _ => constructor
  | |- _ -> _ <> _ => intros _; discriminate
  end).
Example inst_bool : typed [] (prog one_bool TBool) [TStatic TBool; TPlain 0; opt_t TBool; TPlain 0] /\ Forall source_instr (prog one_bool TBool) /\ Forall filled_instr (prog one_bool TBool).
Proof. split; [unfold prog; typ|]. split; unfold prog; typ. Qed.
Example inst_bool_run : exists q, pass (prog one_bool TBool) = Some q /\
  run [] (prog one_bool TBool) = Done [one_bool; VPlain 0 0; some_v TBool (VBool true); VPlain 0 1] /\
  run [] q = Done [VStatic bit_t [bit_v true]; VPlain 0 0; some_v TBool (VBool true); VPlain 0 1].
Proof. eexists. split; [reflexivity|]. split; reflexivity. Qed.
Example inst_sum : typed [] (prog one_sum sum_t) [TStatic sum_t; TPlain 0; opt_t sum_t; TPlain 0] /\ Forall source_instr (prog one_sum sum_t) /\ Forall filled_instr (prog one_sum sum_t).
Proof. split; [unfold prog; typ|]. split; unfold prog; typ. Qed.
Example inst_sum_run : exists q e, pass (prog one_sum sum_t) = Some q /\ run [] q = Done e /\ nth_error e 2 = Some (some_v sum_t (VSum 2 [bit_v false] [[]; [TBool]; [bit_t]])) /\
  nth_error e 0 <> Some one_sum.
Proof. eexists. eexists. split; [reflexivity|]. split; [reflexivity|]. split; [reflexivity|]. simpl. discriminate. Qed.
(** Array of arrays: an element is an array, whose own element is taken in turn; taking the second panics in both. *)
Definition nested_prog (n : nat) : list instr :=
  [Load (VStatic (TStatic TBool) [one_bool]) (TStatic (TStatic TBool)); Load (VPlain 0 0) (TPlain 0); Get (TStatic TBool) 0 1; Unwrap (TStatic TBool) 2;
   Load (VPlain 0 n) (TPlain 0); Get TBool 3 4; Unwrap TBool 5].
Example inst_nested : forall n, exists G2, typed [] (nested_prog n) G2 /\ Forall source_instr (nested_prog n) /\ Forall filled_instr (nested_prog n) /\ Forall supported (nested_prog n).
Proof.
  intros n. eexists. split; [unfold nested_prog, one_bool; typ|]. split; [repeat constructor|]. split; [unfold nested_prog, one_bool; typ|].
  unfold nested_prog. repeat (apply Forall_cons; [try exact I|]); try apply Forall_nil.
  - left. intros X. inversion X.
  - right. apply v_bool.
Qed.
Example inst_nested_run : exists q q2 e, pass (nested_prog 0) = Some q /\ run [] q = Done e /\ nth_error e 6 = Some (VBool true) /\
  pass (nested_prog 1) = Some q2 /\ run [] (nested_prog 1) = Panics /\ run [] q2 = Panics.
Proof. eexists. eexists. eexists. split; [reflexivity|]. split; [reflexivity|]. split; [reflexivity|]. split; [reflexivity|]. split; reflexivity. Qed.
(** Inputs in two representations. *)
Example inst_inputs : Forall2 (lowered false) [TStatic TBool] [TStatic bit_t] /\ Forall2 has [one_bool] [TStatic TBool] /\ Forall2 has [VStatic bit_t [bit_v true]] [TStatic bit_t] /\
  map means [VStatic bit_t [bit_v true]] = map means [one_bool].
Proof. unfold one_bool, bit_v, bit_t, bit_rows. repeat split; repeat constructor. apply has_sum with (row := []); constructor. Qed.
Example inst_convert : exists c, get_op_dest sum_t = DConv (TSum [[]; [bit_t]; [bit_t]]) c /\ c <> Keep.
Proof. eexists. split; [reflexivity|discriminate]. Qed.

Print Assumptions C83_types_partial.
Print Assumptions C83_unique.
Print Assumptions C83_types_refuted.
Print Assumptions C84_meaning.
Print Assumptions C84_types_partial.
Print Assumptions C84_constants.
Print Assumptions C84_convert.
Print Assumptions C85_total_partial.
Print Assumptions C85_total_refuted.
