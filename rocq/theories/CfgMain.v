(** Proofs of the properties of the encoder's configuration, C92, C93 and C94. *)
From Coq Require Import List Arith Bool Lia Permutation.
From Verif Require Import CfgModel CfgSpec CfgProofs CfgProofs2 CfgProofs3.
Import ListNotations.

Lemma C92_cached_pf : forall calls rs, (exists fuel, run fuel new_set calls = Some rs) -> history [] calls rs.
Proof.
 intros calls rs [fuel E]. exact (run_sound fuel calls new_set rs new_ok E). Qed.

Lemma C92_answers_pf : forall calls rs, history [] calls rs ->
  exists enough, forall fuel, enough <= fuel -> run fuel new_set calls = Some rs.
Proof.
  intros calls rs H. destruct (run_complete calls new_set rs new_ok H) as [f0 K]. exists f0. intros fuel L. exact (K fuel L new_set new_ok eq_refl eq_refl).
Qed.

Lemma C92_one_pf : forall trs t r r', means trs t r -> means trs t r' -> r = r'.
Proof.
 exact means_unique. Qed.

Lemma C92_total_pf : forall calls, (forall tr, In (Add tr) calls -> plain tr) ->
  exists rs enough, forall fuel, enough <= fuel -> run fuel new_set calls = Some rs.
Proof.
  intros calls P. destruct (history_total calls [] (Forall_nil _)) as [rs H].
  - apply Forall_forall. intros [tr|t] I; [now apply P|exact Logic.I].
  - exists rs. now apply C92_answers_pf.
Qed.

Lemma C92_params_pf : forall trs t c r, means trs t r -> public r (Some c) ->
  c <> zero /\ (0 < c_params c -> c = one_param /\ exists e n args, t = TExt e n args /\ (e = float_ext \/ e = rotation_ext)).
Proof.
 intros trs t c r M P. inversion P; subst. split; [assumption|]. now apply means_params with trs. Qed.

Lemma C92_regroup_pf : forall trs a b x y, means trs (TSum [a]) (Some x) -> means trs (TSum [b]) (Some y) ->
  means trs (TSum [a ++ b]) (Some (add x y)) /\ means trs (TSum [[TSum [a]; TSum [b]]]) (Some (add x y)).
Proof.
  intros trs a b x y A B. destruct (tuple_inv _ _ _ A) as [Ra Pa]. destruct (tuple_inv _ _ _ B) as [Rb Pb].
  assert (Pn : c_params (add x y) = 0) by (simpl; lia). split; apply tuple_intro; try exact Pn; [now apply row_app|].
  apply rm_some; [exact A|]. rewrite <- (add_zero_r y). apply rm_some; [exact B|constructor].
Qed.

Lemma C93_bool_partial_pf : forall ems tag s, in_order s ->
  exists vs s', const_to_pytket (configure ems) (VSum tag [[]; []] []) s = Encoded vs s' /\ hold [LBit (tag =? 1)] s vs s'.
Proof.
  intros ems tag s O. unfold const_to_pytket. simpl. destruct (const_bit (tag =? 1) s) as [i s'] eqn:E. do 2 eexists. split; [reflexivity|]. now apply hold_bit.
Qed.

Lemma C93_parts_partial_pf : forall ems v l s, in_order s -> spells ems v l -> ~ has_bool v ->
  exists l' vs s', const_to_pytket (configure ems) v s = Encoded vs s' /\ hold l' s vs s' /\ Permutation l l' /\
    (last_nested v -> hold l s vs s').
Proof.
  intros ems v l s O Sp Nb. unfold const_to_pytket.
  assert (Sa : spell_all ems [v] l) by (rewrite <- (app_nil_r l); constructor; [exact Sp|constructor]).
  assert (N1 : forall w, In w [v] -> ~ has_bool w) by (intros w [<-|[]]; exact Nb).
  assert (W : weight [v] < S (vsize v)) by (unfold weight; simpl; lia).
  destruct (queue_spells ems (S (vsize v)) [v] l no_values s W O Sa N1) as (l' & vs & s' & E & H & P).
  rewrite append_nil_l in E. exists l', vs, s'. split; [exact E|]. split; [exact H|]. split; [exact P|]. intros Ln.
  destruct (queue_order ems (S (vsize v)) [v] l no_values s W O Sa N1) as (vs2 & s2 & E2 & H2); [right; exists [], v; split; [reflexivity|split; [intros w []|exact Ln]]|].
  rewrite E in E2. rewrite append_nil_l in E2. injection E2 as <- <-. exact H2.
Qed.

Lemma C93_counts_partial_pf : forall ems trs v l c s vs s', agree ems trs -> in_order s -> typed v -> means trs (type_of v) (Some c) ->
  spells ems v l -> ~ has_bool v -> const_to_pytket (configure ems) v s = Encoded vs s' ->
  c_qubits c = 0 /\ length (t_bits vs) = c_bits c /\ length (t_params vs) = c_params c.
Proof.
  intros ems trs v l c s vs s' Ag O T M Sp Nb E. destruct (C93_parts_partial_pf ems v l s O Sp Nb) as (l' & vs1 & s1 & E1 & H & P & _).
  rewrite E in E1. injection E1 as <- <-. pose proof (proj1 (spells_counted ems trs Ag) v l Sp c T M) as Cn.
  destruct (counted_perm _ _ _ P Cn) as (Q & B & A). destruct (hold_counts _ _ _ _ H) as [Hb Ha]. rewrite Hb, Ha. auto.
Qed.

Lemma C93_ends_pf : forall g v s, const_to_pytket g v s <> OutOfFuel.
Proof.
 intros g v s. unfold const_to_pytket. apply queue_ends. unfold weight. simpl. lia. Qed.

Lemma C93_lost_refuted_pf : forall ems tag ts vals s,
  (exists i s', const_to_pytket (configure ems) (VSum 0 [ts] (VSum tag [[]; []] [] :: vals)) s = Encoded {| t_bits := [i]; t_params := [] |} s') /\
  (forall trs, means trs (TSum [[TSum [[]; []]; TSum [[]; []]]]) (Some {| c_qubits := 0; c_bits := 2; c_params := 0 |})) /\
  (forall tag', spells ems (VSum 0 [[TSum [[]; []]; TSum [[]; []]]] [VSum tag [[]; []] []; VSum tag' [[]; []] []]) [LBit (tag =? 1); LBit (tag' =? 1)]).
Proof.
  intros ems tag ts vals s. split; [|split].
  - unfold const_to_pytket. rewrite queue_tuple. simpl. destruct (const_bit (tag =? 1) s) as [i s']. eauto.
  - intros trs. apply tuple_intro; [|reflexivity].
    change {| c_qubits := 0; c_bits := 2; c_params := 0 |} with (add one_bit (add one_bit zero)). repeat (apply rm_some; [constructor|]). constructor.
  - intros tag'. apply sp_tuple. apply (sa_cons _ _ _ [_] [_]); [constructor|]. apply (sa_cons _ _ _ [_] []); constructor.
Qed.

Lemma C93_order_refuted_pf : forall ems e n s, in_order s -> (forall p, encoded_as ems e n [] p [LBit (p =? 1)]) ->
  let b := TExt e n [] in
  let v := VSum 0 [[TSum [[b; b]]; b]] [VSum 0 [[b; b]] [VExt e n [] 0; VExt e n [] 0]; VExt e n [] 1] in
  typed v /\ spells ems v [LBit false; LBit false; LBit true] /\
  exists vs s', const_to_pytket (configure ems) v s = Encoded vs s' /\ hold [LBit true; LBit false; LBit false] s vs s' /\
    ~ hold [LBit false; LBit false; LBit true] s vs s'.
Proof.
  intros ems e n s O En b v. split; [|split].
  - apply ty_sum with [TSum [[b; b]]; b]; [reflexivity|reflexivity|]. intros w [<-|[<-|[]]]; [|constructor].
    apply ty_sum with [b; b]; [reflexivity|reflexivity|]. intros w [<-|[<-|[]]]; constructor.
  - apply sp_tuple. apply (sa_cons _ _ _ [_; _] [_]); [|apply (sa_cons _ _ _ [_] []); [apply sp_ext; apply (En 1)|constructor]].
    apply sp_tuple. apply (sa_cons _ _ _ [_] [_]); [apply sp_ext; apply (En 0)|apply (sa_cons _ _ _ [_] []); [apply sp_ext; apply (En 0)|constructor]].
  - assert (E : exists vs s', const_to_pytket (configure ems) v s = Encoded vs s' /\ emit [LBit true; LBit false; LBit false] s = (vs, s')).
    { unfold const_to_pytket, v. rewrite queue_tuple. simpl vsize. cbn [app]. rewrite queue_tuple. cbn [app encode_queue].
      rewrite (const_encoded _ _ _ _ _ _ (En 1)), !(const_encoded _ _ _ _ _ _ (En 0)). simpl.
      destruct (const_bit true s) as [i1 s1]. destruct (const_bit false s1) as [i2 s2]. destruct (const_bit false s2) as [i3 s3]. eauto. }
    destruct E as (vs & s' & E & Em). exists vs, s'. split; [exact E|]. pose proof (emit_hold _ _ _ _ O Em) as H. split; [exact H|].
    intros H'. pose proof (hold_bools _ _ _ _ _ H H'). discriminate.
Qed.

Lemma C94_consts_pf : forall ems e n args p,
  first_of (fun em => general em \/ exists e', mentions (TExt e n args) e' /\ specific em e') (fun em => em_const em e n args p) ems
    (first (fun em => em_const em e n args p) (for_extensions (configure ems) (used (TExt e n args)))).
Proof.
 intros. apply const_first. Qed.

Lemma C94_ops_partial_pf : forall ems e o, exists r r',
  first_of (fun em => specific em e) (fun em => em_op em e o) ems r /\ first_of general (fun em => em_op em e o) ems r' /\
  op_to_pytket (configure ems) e o = match r with Some x => Some x | None => r' end.
Proof.
  intros ems e o. pose proof (configured ems) as [E1 E2 E3]. do 2 eexists. split; [exact (first_numbers _ _ e ems [])|]. split; [exact (first_generals _ _ ems [])|].
  unfold op_to_pytket, for_extension, pick. rewrite E1, E2, E3, flat_map_app, first_app. reflexivity.
Qed.

Lemma C94_ops_refuted_pf : exists ems e o r,
  first_of (fun em => general em \/ specific em e) (fun em => em_op em e o) ems r /\ op_to_pytket (configure ems) e o <> r.
Proof.
  exists [{| em_exts := None; em_op := fun _ _ => Some 10; em_const := fun _ _ _ _ => None |};
          {| em_exts := Some [5]; em_op := fun _ _ => Some 20; em_const := fun _ _ _ _ => None |}], 5, 0, (Some 10).
  split; [apply fo_some; [left; reflexivity|reflexivity]|]. discriminate.
Qed.

