(** Properties of the encoder's configuration, C92, C93 and C94. *)
From Coq Require Import List Arith Bool Lia Permutation.
From Verif Require Import CfgModel CfgSpec CfgProofs CfgProofs2 CfgProofs3 CfgMain.
Import ListNotations.

(** ** C92. A set of type translators answers as if there were no cache: whatever translators are added and types translated, in
    whatever order, each answer is the one of the translators added so far. *)
Theorem C92_cached : forall calls rs, (exists fuel, run fuel new_set calls = Some rs) -> history [] calls rs.
Proof. exact C92_cached_pf. Qed.

(** And it answers whenever there is an answer. *)
Theorem C92_answers : forall calls rs, history [] calls rs ->
  exists enough, forall fuel, enough <= fuel -> run fuel new_set calls = Some rs.
Proof. exact C92_answers_pf. Qed.

(** There is only one answer; and there always is one, if the translators ask nothing. *)
Theorem C92_one : forall trs t r r', means trs t r -> means trs t r' -> r = r'.
Proof. exact C92_one_pf. Qed.
Theorem C92_total : forall calls, (forall tr, In (Add tr) calls -> plain tr) ->
  exists rs enough, forall fuel, enough <= fuel -> run fuel new_set calls = Some rs.
Proof. exact C92_total_pf. Qed.

(** Only floats and rotations have parameters, and they have one; answers are never empty. *)
Theorem C92_params : forall trs t c r, means trs t r -> public r (Some c) ->
  c <> zero /\ (0 < c_params c -> c = one_param /\ exists e n args, t = TExt e n args /\ (e = float_ext \/ e = rotation_ext)).
Proof. exact C92_params_pf. Qed.

(** Taking tuples apart and putting them together does not change the registers. *)
Theorem C92_regroup : forall trs a b x y, means trs (TSum [a]) (Some x) -> means trs (TSum [b]) (Some y) ->
  means trs (TSum [a ++ b]) (Some (add x y)) /\ means trs (TSum [[TSum [a]; TSum [b]]]) (Some (add x y)).
Proof. exact C92_regroup_pf. Qed.

(** ** C93. A constant is encoded by bits and parameters that hold its parts.  Proved for a bool, and for constants without bools
    (as sums) inside: then the values are those of the parts, but in the order of the parts only if tuples stand last in tuples. *)
Theorem C93_bool_partial : forall ems tag s, in_order s ->
  exists vs s', const_to_pytket (configure ems) (VSum tag [[]; []] []) s = Encoded vs s' /\ hold [LBit (tag =? 1)] s vs s'.
Proof. exact C93_bool_partial_pf. Qed.
Theorem C93_parts_partial : forall ems v l s, in_order s -> spells ems v l -> ~ has_bool v ->
  exists l' vs s', const_to_pytket (configure ems) v s = Encoded vs s' /\ hold l' s vs s' /\ Permutation l l' /\
    (last_nested v -> hold l s vs s').
Proof. exact C93_parts_partial_pf. Qed.

(** There are as many values as the type has registers, if emitters and translators agree. *)
Theorem C93_counts_partial : forall ems trs v l c s vs s', agree ems trs -> in_order s -> typed v -> means trs (type_of v) (Some c) ->
  spells ems v l -> ~ has_bool v -> const_to_pytket (configure ems) v s = Encoded vs s' ->
  c_qubits c = 0 /\ length (t_bits vs) = c_bits c /\ length (t_params vs) = c_params c.
Proof. exact C93_counts_partial_pf. Qed.

Theorem C93_ends : forall g v s, const_to_pytket g v s <> OutOfFuel.
Proof. exact C93_ends_pf. Qed.

(** In a tuple that begins with a bool nothing else is encoded, whatever it is; so of a pair of bools, whose type has two bits,
    there is one. *)
Theorem C93_lost_refuted : forall ems tag ts vals s,
  (exists i s', const_to_pytket (configure ems) (VSum 0 [ts] (VSum tag [[]; []] [] :: vals)) s = Encoded {| t_bits := [i]; t_params := [] |} s') /\
  (forall trs, means trs (TSum [[TSum [[]; []]; TSum [[]; []]]]) (Some {| c_qubits := 0; c_bits := 2; c_params := 0 |})) /\
  (forall tag', spells ems (VSum 0 [[TSum [[]; []]; TSum [[]; []]]] [VSum tag [[]; []] []; VSum tag' [[]; []] []]) [LBit (tag =? 1); LBit (tag' =? 1)]).
Proof. exact C93_lost_refuted_pf. Qed.

(** Bools of the extension keep their values, but not their places: ((x, y), z) is encoded as z, x, y. *)
Theorem C93_order_refuted : forall ems e n s, in_order s -> (forall p, encoded_as ems e n [] p [LBit (p =? 1)]) ->
  let b := TExt e n [] in
  let v := VSum 0 [[TSum [[b; b]]; b]] [VSum 0 [[b; b]] [VExt e n [] 0; VExt e n [] 0]; VExt e n [] 1] in
  typed v /\ spells ems v [LBit false; LBit false; LBit true] /\
  exists vs s', const_to_pytket (configure ems) v s = Encoded vs s' /\ hold [LBit true; LBit false; LBit false] s vs s' /\
    ~ hold [LBit false; LBit false; LBit true] s vs s'.
Proof. exact C93_order_refuted_pf. Qed.

(** ** C94. A constant is encoded by the first emitter, in the order in which they were added, that is for one of its extensions
    (or for all) and can encode it. *)
Theorem C94_consts : forall ems e n args p,
  first_of (fun em => general em \/ exists e', mentions (TExt e n args) e' /\ specific em e') (fun em => em_const em e n args p) ems
    (first (fun em => em_const em e n args p) (for_extensions (configure ems) (used (TExt e n args)))).
Proof. exact C94_consts_pf. Qed.

(** An operation likewise, but first by the emitters for its extension, and then by those for all. *)
Theorem C94_ops_partial : forall ems e o, exists r r',
  first_of (fun em => specific em e) (fun em => em_op em e o) ems r /\ first_of general (fun em => em_op em e o) ems r' /\
  op_to_pytket (configure ems) e o = match r with Some x => Some x | None => r' end.
Proof. exact C94_ops_partial_pf. Qed.
Theorem C94_ops_refuted : exists ems e o r,
  first_of (fun em => general em \/ specific em e) (fun em => em_op em e o) ems r /\ op_to_pytket (configure ems) e o <> r.
Proof. exact C94_ops_refuted_pf. Qed.

(** ** Instances *)
(** Extension 3 with a bit (2) and boxes (7) of other types, which ask for what is inside. *)
Definition bits3 : translator :=
  {| tr_exts := [3; 4; 3]; tr_type := fun _ n args => if n =? 2 then Done (Some one_bit) else
       match args with [t] => Ask t (fun r => Done r) | _ => Done None end |}.
Example inst_run : let box t := TExt 3 7 [t] in let b := TExt 3 2 [] in
  run 20 new_set [Query (box b); Query (TExt 0 9 []); Add bits3; Query (box b); Query (TSum [[b; box (box b); TSum [[]]]]); Query (TSum [[b; TExt 0 9 []]])] =
  Some [None; Some one_param; Some one_bit; Some {| c_qubits := 0; c_bits := 2; c_params := 0 |}; None].
Proof. vm_compute. reflexivity. Qed.
Example inst_history : exists rs, history [] [Add bits3; Query (TExt 3 7 [TExt 3 2 []])] rs.
Proof. exists [Some one_bit]. apply C92_cached. exists 10. vm_compute. reflexivity. Qed.
Example inst_plain : plain {| tr_exts := [6]; tr_type := fun _ n _ => Done (if n =? 0 then Some one_bit else None) |}.
Proof. intros e n args. eexists. reflexivity. Qed.
Example inst_regroup : means [] (TSum [[TSum [[]; []]]]) (Some one_bit) /\ means [] (TSum [[TSum [[]]]]) (Some zero).
Proof.
  split; apply tuple_intro; try reflexivity.
  - change one_bit with (add one_bit zero). apply rm_some; constructor.
  - change zero with (add zero zero). apply rm_some; [apply tuple_intro; [constructor|reflexivity]|constructor].
Qed.
(** An emitter for the constants of extension 4. *)
Definition bools4 : emitter :=
  {| em_exts := Some [4]; em_op := fun _ _ => None; em_const := fun _ n _ p => if n =? 2 then Some [LBit (p =? 1)] else None |}.
Definition other9 : emitter := {| em_exts := Some [9]; em_op := fun _ _ => None; em_const := fun _ _ _ _ => Some [] |}.
Example inst_encoded : forall p, encoded_as [other9; bools4] 4 2 [] p [LBit (p =? 1)].
Proof.
  intros p. apply fo_skip.
  - intros [G|(e & M & es & E & I)]; [discriminate|]. inversion M; subst; [|match goal with K : In _ [] |- _ => destruct K end]. injection E as <-. destruct I as [I|[]]. discriminate.
  - apply fo_some; [|reflexivity]. right. exists 4. split; [constructor|]. exists [4]. split; [reflexivity|now left].
Qed.
Example inst_parts : let b := TExt 4 2 [] in let v := VSum 0 [[b; TSum [[b; b]]]] [VExt 4 2 [] 1; VSum 0 [[b; b]] [VExt 4 2 [] 0; VExt 4 2 [] 1]] in
  spells [other9; bools4] v [LBit true; LBit false; LBit true] /\ ~ has_bool v /\ last_nested v /\ typed v /\
  const_to_pytket (configure [other9; bools4]) v {| e_unused := [1; 5]; e_next := 8; e_set := [1]; e_params := [] |} =
    Encoded {| t_bits := [1; 5; 8]; t_params := [] |} {| e_unused := []; e_next := 9; e_set := [1; 1; 8]; e_params := [] |}.
Proof.
  intros b v. split; [|split; [|split; [|split; [|vm_compute; reflexivity]]]].
  - apply sp_tuple. apply (sa_cons _ _ _ [_] [_; _]); [apply sp_ext, (inst_encoded 1)|]. apply (sa_cons _ _ _ [_; _] []); [|constructor].
    apply sp_tuple. apply (sa_cons _ _ _ [_] [_]); [apply sp_ext, (inst_encoded 0)|]. apply (sa_cons _ _ _ [_] []); [apply sp_ext, (inst_encoded 1)|constructor].
  - intros Hb. unfold v in Hb. inversion Hb as [|? ? ? w I Hw]; subst. destruct I as [<-|[<-|[]]]; [inversion Hw|].
    inversion Hw as [|? ? ? w I Hw']; subst. destruct I as [<-|[<-|[]]]; inversion Hw'.
  - apply (ln_last 0 _ [_]); [intros w [<-|[]]; eauto|]. apply ln_flat. intros w [<-|[<-|[]]]; eauto.
  - apply ty_sum with [b; TSum [[b; b]]]; [reflexivity|reflexivity|]. intros w [<-|[<-|[]]]; [constructor|].
    apply ty_sum with [b; b]; [reflexivity|reflexivity|]. intros w [<-|[<-|[]]]; constructor.
Qed.
Example inst_agree : agree
  [{| em_exts := Some [4]; em_op := fun _ _ => None; em_const := fun e n _ p => if (e =? 4) && (n =? 2) then Some [LBit (p =? 1)] else None |}]
  [{| tr_exts := [4]; tr_type := fun _ n _ => Done (if n =? 2 then Some one_bit else None) |}].
Proof.
  intros e n args p l c En M. inversion En as [|x ? ? _ Q|x ? ? _ _ Q|x ? y Pe Ef]; subst; try (inversion Q; fail).
  simpl in Ef. destruct (e =? 4) eqn:E1; [|discriminate]. destruct (n =? 2) eqn:E2; [|discriminate]. injection Ef as <-.
  apply Nat.eqb_eq in E1, E2. subst.
  assert (M' : means [{| tr_exts := [4]; tr_type := fun _ n _ => Done (if n =? 2 then Some one_bit else None) |}] (TExt 4 2 args) (Some one_bit)).
  { apply m_ext with (Some one_bit); [discriminate|discriminate| |now apply co_some]. apply an_some; [now left|constructor]. }
  pose proof (C92_one _ _ _ _ M M') as E. injection E as ->. repeat split.
Qed.
Example inst_order : in_order {| e_unused := [1; 5]; e_next := 8; e_set := [1]; e_params := [] |}.
Proof. split; [constructor; [intros [|[]]; discriminate|constructor; [intros []|constructor]]|]. intros i [<-|[<-|[]]]; simpl; lia. Qed.

Print Assumptions C92_cached.
Print Assumptions C92_answers.
Print Assumptions C92_one.
Print Assumptions C92_total.
Print Assumptions C92_params.
Print Assumptions C92_regroup.
Print Assumptions C93_bool_partial.
Print Assumptions C93_parts_partial.
Print Assumptions C93_counts_partial.
Print Assumptions C93_ends.
Print Assumptions C93_lost_refuted.
Print Assumptions C93_order_refuted.
Print Assumptions C94_consts.
Print Assumptions C94_ops_partial.
Print Assumptions C94_ops_refuted.
