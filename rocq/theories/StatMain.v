(** Proofs of the properties of the pass on static arrays of booleans, C83 to C85. *)
From Coq Require Import List Bool Arith Lia.
From Verif Require Import StatModel StatSpec StatProofs StatProofs2.
Import ListNotations.

Lemma C83_types_partial_pf :
  forall G p G2 q,
    typed G p G2 -> Forall source_instr p -> Forall filled_instr p -> pass p = Some q ->
    exists G' G2', Forall2 (lowered false) G G' /\ Forall2 (lowered false) G2 G2' /\ typed G' q G2' /\ Forall clean G' /\ Forall clean G2'.
Proof.
  intros G p G2 q T S F P. exists (map out_type G), (map out_type G2). split; [now apply lowered_list|]. split; [now apply lowered_list|].
  split; [eapply pass_typed; eauto|]. split; apply Forall_forall; intros t J; apply in_map_iff in J as (u & <- & _); apply out_clean.
Qed.

Lemma C83_unique_pf :
  forall t u v, lowered false t u -> lowered false t v -> u = v /\ clean u.
Proof.
  intros t u v A B. apply lowered_fun in A, B. simpl in A, B. subst. split; [reflexivity|apply out_clean].
Qed.

Lemma C83_types_refuted_pf :
  exists p G2 q, typed [] p G2 /\ Forall source_instr p /\ Forall supported p /\ pass p = Some q /\ ~ exists G2', typed [] q G2'.
Proof.
  exists [Load (VStatic TBool []) (TStatic TBool)], [TStatic TBool], [Load (VStatic TBool []) (TStatic bit_t)].
  split; [exists (TStatic TBool); split; [constructor; constructor; constructor|reflexivity]|].
  split; [repeat constructor|]. split; [repeat constructor|]. split; [reflexivity|].
  intros (G2' & t & T & _). inversion T as [v u V| | | |]; subst. inversion V.
Qed.

Lemma C84_meaning_pf :
  forall G p G2 q env env' G',
    typed G p G2 -> Forall source_instr p -> pass p = Some q ->
    Forall2 (lowered false) G G' -> Forall2 has env G -> Forall2 has env' G' -> map means env' = map means env ->
    same_end (run env p) (run env' q) /\ forall e, run env p = Done e -> Forall2 has e G2.
Proof.
  intros G p G2 q env env' G' T S P L HE HE' M. apply lowered_list in L. subst G'.
  pose proof (run_agree p G G2 q env env' T S P HE (has_all_fits _ _ HE') M) as A. unfold agree in A.
  destruct (run env p) as [e| |], (run env' q) as [e'| |]; try contradiction; simpl.
  - destruct A as (A & B & C). split; [exact C|]. intros e0 E; injection E as <-; exact A.
  - split; [exact I|]. intros; discriminate.
Qed.

Lemma C84_types_partial_pf :
  forall G p G2 q env G' G2',
    typed G p G2 -> Forall source_instr p -> Forall filled_instr p -> pass p = Some q ->
    Forall2 (lowered false) G G' -> Forall2 (lowered false) G2 G2' -> Forall2 has env G' ->
    match run env q with Done e => Forall2 has e G2' | Panics => True | Stuck => False end.
Proof.
  intros G p G2 q env G' G2' T S F P L L2 HE. apply lowered_list in L, L2. subst. eapply run_typed; [|exact HE]. eapply pass_typed; eauto.
Qed.

Lemma C84_constants_pf :
  (forall v, means (fst (out_value v)) = means v) /\
  (forall v t u, has v t -> filled v -> lowered false t u -> has (fst (out_value v)) u) /\
  (forall v w t, has v t -> has w t -> means v = means w -> v = w).
Proof.
  split; [exact means_out|]. split; [|exact value_unique]. intros v t u H F L. apply lowered_fun in L. simpl in L. subst. now apply ov_ok.
Qed.

Lemma C84_convert_pf :
  forall t u v new c w, get_op_dest v = DConv new c -> lowered true t u -> lowered false t v -> has w (opt_t u) ->
    new = u /\ exists w', convert c w = Some w' /\ has w' (opt_t v) /\ means w' = means w.
Proof.
  intros t u v new c w D A B H. apply lowered_fun in A, B. simpl in A, B. subst. pose proof (dest_spec t) as X. rewrite D in X. destruct X as (-> & X & _).
  split; [reflexivity|]. eapply convert_typed; eauto.
Qed.

Lemma C85_total_partial_pf :
  forall p, pass p <> None <-> Forall supported p.
Proof.
  intros p. symmetry. apply pass_total.
Qed.

Lemma C85_total_refuted_pf :
  exists G p G2 r H2, typed G p G2 /\ Forall source_instr p /\ Forall filled_instr p /\ pass p = None /\
    typed [TStatic (TSeq 1 TBool); TPlain 0] r H2 /\ Forall source_instr r /\ Forall filled_instr r /\ pass r = None.
Proof.
  set (t := TSum [[TBool; TFun [] []]]).
  exists [TStatic t; TPlain 0], [Get t 0 1], [TStatic t; TPlain 0; opt_t t], [Get (TSeq 1 TBool) 0 1], [TStatic (TSeq 1 TBool); TPlain 0; opt_t (TSeq 1 TBool)].
  repeat split; try (repeat constructor; fail); try (eexists; split; [constructor; reflexivity|reflexivity]).
Qed.

