(** Proofs of the properties of circuits that are put back in place, C95 and C96. *)
From Coq Require Import List Arith Bool Lia.
From Verif Require Import MovModel MovSpec MovProofs MovProofs2 MovProofs3.
Import ListNotations.

Lemma C95_nodes_pf :
  forall ins outs kin kout rg steps h depth root, setting ins outs rg steps h depth root ->
    let h' := reassemble outs kin kout depth rg steps h in
    (forall n, In n (moved steps) -> parent h' n = parent h n) /\
    (forall n, kept rg steps h n -> parent h' n = parent h n) /\
    (forall n, encoded rg steps h n \/ n = old_in rg \/ n = old_out rg -> gone rg steps h n) /\
    (forall n, gone rg steps h n -> parent h' n = None) /\
    (forall s t, In (s, t) (links h') -> ~ gone rg steps h (fst s) /\ ~ gone rg steps h (fst t)) /\
    (forall n, parent h n = Some (r_new rg) -> parent h' n = Some (r_old rg)).
Proof.
  intros ins outs kin kout rg steps h depth root SE h'.
  assert (P : forall n, parent h' n = if beneath depth (fold_left (do_step kin kout rg) steps h) (r_old rg) n || Nat.eqb n (r_new rg) then None
      else if has_parent (fold_left (do_step kin kout rg) steps h) n (r_new rg) then Some (r_old rg) else parent (fold_left (do_step kin kout rg) steps h) n).
  { intros n. unfold h', reassemble, replace_region. cbn [parent]. rewrite (beneath_ext depth _ (fold_left (do_step kin kout rg) steps h) _ _ (nonlocal_parent outs rg _)).
    unfold has_parent. rewrite nonlocal_parent. reflexivity. }
  assert (ND : forall n, parent h n = Some (r_old rg) \/ parent h n = Some (r_new rg) -> n <> r_new rg).
  { intros n [E|E] ->.
    - apply (proj1 (se_apart _ _ _ _ _ _ _ SE)). eapply within_child; [exact E|constructor].
    - destruct (se_depth _ _ _ _ _ _ _ SE) as (d & _ & K). pose proof (K _ _ E). lia. }
  assert (Q : forall n, parent (fold_left (do_step kin kout rg) steps h) n = Some (r_new rg) -> n <> r_new rg -> parent h' n = Some (r_old rg)).
  { intros n E N. rewrite P. rewrite (in_new_beneath _ _ _ _ _ _ _ _ _ SE depth n E). apply Nat.eqb_neq in N. rewrite N. simpl.
    apply has_parent_iff in E. now rewrite E. }
  assert (A : forall n, In n (moved steps) -> parent h' n = parent h n).
  { intros n I. destruct (se_local _ _ _ _ _ _ _ SE n I) as (E & _). rewrite E. apply Q; [eapply moved_parent; eauto|apply ND; now left]. }
  split; [exact A|]. split; [|split; [|split; [|split]]].
  - intros n K. destruct (in_dec Nat.eq_dec n (moved steps)) as [I|I]; [now apply A|]. rewrite P. rewrite (kept_beneath _ _ _ _ _ _ _ _ _ SE n depth K).
    unfold has_parent. rewrite (unmoved_parent kin kout rg steps h n I).
    assert (N : n <> r_new rg) by (intros ->; apply (proj1 K); constructor). apply Nat.eqb_neq in N. rewrite N. simpl.
    destruct (parent h n) as [p|] eqn:E; [|reflexivity]. destruct (Nat.eqb p (r_new rg)) eqn:E'; [|reflexivity]. apply Nat.eqb_eq in E'. subst p. exfalso.
    apply (proj1 K). eapply within_child; [exact E|constructor].
  - intros n K. assert (X : parent h n = Some (r_old rg) /\ ~ In n (moved steps)).
    { destruct (se_region _ _ _ _ _ _ _ SE) as (R1 & R2 & _). destruct (io_unmoved _ _ _ _ _ _ _ SE) as (U1 & U2).
      destruct K as [(E & _ & _ & N)|[->| ->]]; auto. }
    eapply child_gone; [exact SE|apply X|apply X].
  - intros n G. rewrite P. now rewrite (gone_beneath _ _ kin kout _ _ _ _ _ SE n G).
  - intros s t I. unfold h', reassemble, replace_region in I. cbn [links] in I. apply filter_In in I. destruct I as [_ I]. cbn [fst snd] in I.
    rewrite !(beneath_ext depth _ (fold_left (do_step kin kout rg) steps h) _ _ (nonlocal_parent outs rg _)) in I.
    split; intros G; apply (gone_beneath _ _ kin kout _ _ _ _ _ SE) in G; rewrite G in I; [discriminate|]. rewrite andb_false_r in I. discriminate.
  - intros n E. apply Q; [|apply ND; now right]. rewrite (unmoved_parent kin kout rg steps h n); [exact E|]. eapply new_unmoved; eauto.
Qed.

Lemma C95_links_partial_pf :
  forall ins outs kin kout rg steps h depth root, setting ins outs rg steps h depth root -> forall s t,
    kept rg steps h (fst s) -> kept rg steps h (fst t) -> only_source h s t ->
    ~ (kout s = Reg /\ leaves outs rg steps h s) -> (enters ins rg steps h t -> kin t = Uns) ->
    only_source (reassemble outs kin kout depth rg steps h) s t.
Proof.
  intros ins outs kin kout rg steps h depth root SE s t KS KT O NL EU. apply only_iff in O. apply only_iff.
  rewrite reassemble_sources by (eapply kept_beneath; eauto).
  destruct (io_not_kept _ _ kin kout _ _ _ _ _ SE) as (NI & _).
  assert (NS : fst s <> old_in rg) by (intros E; rewrite E in KS; contradiction).
  assert (NC : existsb (fun st => step_cuts kout st s) steps = false).
  { destruct (existsb (fun st => step_cuts kout st s) steps) eqn:E; [|reflexivity]. apply (step_cuts_iff _ _ _ _ _ _ _ _ SE) in E. exfalso. apply NL. tauto. }
  assert (F : linked_outputs (fold_left (do_step kin kout rg) steps h) t = [s]).
  { destruct (existsb (fun st => match st with Sub sg _ => existsb (same t) (sg_in sg) | New _ => false end) steps) eqn:EN.
    - apply existsb_exists in EN. destruct EN as ([sg found|es] & I & J); [|discriminate]. apply existsb_exists in J. destruct J as (t' & J & E). apply same_iff in E. subst t'.
      destruct (in_split _ _ I) as (before_ & after & E). rewrite (run_entering _ _ kin kout _ _ _ _ _ SE t before_ sg found after E J). rewrite O.
      rewrite E, existsb_app in NC. simpl in NC. apply orb_false_iff in NC. destruct NC as [C1 NC]. apply orb_false_iff in NC. destruct NC as [C2 C3].
      assert (EN : enters ins rg steps h t) by (apply (enters_sub _ _ _ _ _ _ _ SE); eauto). simpl. rewrite C1. simpl. unfold added. rewrite (EU EN).
      apply Nat.eqb_neq in NS. rewrite NS. simpl. rewrite C2. simpl. rewrite C3. reflexivity.
    - rewrite (run_not_entering _ _ kin kout _ _ _ _ _ SE t KT).
      + rewrite O. simpl. now rewrite NC.
      + intros EN'. apply (enters_sub _ _ _ _ _ _ _ SE) in EN'. destruct EN' as (sg & found & I & J). apply Bool.not_true_iff_false in EN. apply EN.
        apply existsb_exists. exists (Sub sg found). split; [exact I|]. apply existsb_exists. exists t. split; [exact J|apply same_refl]. }
  rewrite F. cbn [filter]. unfold stays at 1. apply Nat.eqb_neq in NS. rewrite NS. cbn [andb map app filter]. rewrite (kept_beneath _ _ _ _ _ _ _ _ _ SE (fst s) depth KS). reflexivity.
Qed.

Lemma C95_inputs_partial_pf :
  forall ins outs kin kout rg steps h depth root, setting ins outs rg steps h depth root -> typed ins outs kin kout h -> forall i t,
    kept rg steps h (fst t) -> only_source h (old_in rg, i) t -> (enters ins rg steps h t -> kin t = Uns) ->
    only_source (reassemble outs kin kout depth rg steps h) (new_in rg, i) t.
Proof.
  intros ins outs kin kout rg steps h depth root SE TY i t KT O EU. apply only_iff in O. apply only_iff.
  assert (LI : In ((old_in rg, i), t) (links h)) by (apply in_sources; rewrite O; now left).
  rewrite reassemble_sources by (eapply kept_beneath; eauto).
  destruct (se_region _ _ _ _ _ _ _ SE) as (R1 & _). destruct (io_unmoved _ _ _ _ _ _ _ SE) as (U1 & _). destruct (se_new _ _ _ _ _ _ _ SE) as (N1 & _).
  pose proof (new_unmoved _ _ _ _ _ _ _ SE _ N1) as U2.
  assert (NC : forall st n j, In st steps -> ~ In n (moved steps) -> step_cuts kout st (n, j) = false).
  { intros st n j I N. destruct (step_cuts kout st (n, j)) eqn:E; [|reflexivity]. exfalso. apply N. apply (step_cuts_moved _ _ _ _ _ _ _ _ SE) in E; [|exact I].
    destruct (in_split _ _ I) as (x & y & ->). rewrite moved_app. apply in_or_app. right. change (st :: y) with ([st] ++ y). rewrite moved_app. apply in_or_app. now left. }
  assert (NC' : forall l n j, incl l steps -> ~ In n (moved steps) -> existsb (fun st => step_cuts kout st (n, j)) l = false).
  { intros l n j L N. destruct (existsb _ l) eqn:E; [|reflexivity]. apply existsb_exists in E. destruct E as (st & I & E). rewrite NC in E; [discriminate|apply L; exact I|exact N]. }
  pose proof (child_beneath _ _ kin kout _ _ _ _ _ SE _ R1 U1) as BI. pose proof (new_in_beneath _ _ kin kout _ _ _ _ _ SE) as BN.
  pose proof (in_out_differ _ _ _ _ _ _ _ SE) as ND.
  assert (HO : has_parent (fold_left (do_step kin kout rg) steps h) (fst t) (r_old rg) = false).
  { destruct (has_parent _ (fst t) (r_old rg)) eqn:E; [|reflexivity]. apply has_parent_iff in E. destruct (se_depth _ _ _ _ _ _ _ SE) as (d & D & _). pose proof (D 0).
    pose proof (kept_beneath _ _ kin kout _ _ _ _ _ SE (fst t) depth KT) as B. destruct depth as [|k]; [lia|]. simpl in B. rewrite E, Nat.eqb_refl in B. discriminate. }
  destruct (existsb (fun st => match st with Sub sg _ => existsb (same t) (sg_in sg) | New _ => false end) steps) eqn:EN.
  - apply existsb_exists in EN. destruct EN as ([sg found|es] & I & J); [|discriminate]. apply existsb_exists in J. destruct J as (t' & J & E). apply same_iff in E. subst t'.
    destruct (in_split _ _ I) as (before_ & after & E). rewrite (run_entering _ _ kin kout _ _ _ _ _ SE t before_ sg found after E J). rewrite O.
    assert (EN : enters ins rg steps h t) by (apply (enters_sub _ _ _ _ _ _ _ SE); eauto).
    assert (HN : has_parent (fold_left (do_step kin kout rg) steps h) (fst t) (r_new rg) = true).
    { apply has_parent_iff. eapply moved_parent; eauto. apply (sub_in _ _ _ _ _ _ _ SE sg found t I) in J. eapply group_moved; [eapply sub_group; eauto|apply J]. }
    assert (LB : incl before_ steps) by (rewrite E; intros x X; apply in_or_app; now left).
    assert (LA : incl after steps) by (rewrite E; intros x X; apply in_or_app; right; now right).
    assert (C1 : forall n j, ~ In n (moved steps) -> cuts kout (sg_out sg) (n, j) = false) by (intros n j N; apply (NC (Sub sg found) n j I N)).
    cbn [filter]. rewrite (NC' before_ _ i LB U1). cbn [negb]. unfold added. rewrite (EU EN). cbn [fst snd]. rewrite Nat.eqb_refl. cbn [app filter].
    rewrite (C1 _ i U1), (C1 _ i U2). cbn [negb filter]. rewrite (NC' after _ i LA U1), (NC' after _ i LA U2). cbn [negb filter].
    assert (V : Nat.ltb i (outs (old_in rg)) = true).
    { apply Nat.ltb_lt. destruct (TY _ _ LI) as [T _]. apply T. apply EN. }
    unfold stays. cbn [fst snd]. rewrite Nat.eqb_refl, HO, HN, V. apply Nat.eqb_neq in ND. rewrite ND. cbn [andb orb negb map app filter fst]. rewrite BI, BN. reflexivity.
  - assert (EN' : ~ enters ins rg steps h t).
    { intros EN'. apply (enters_sub _ _ _ _ _ _ _ SE) in EN'. destruct EN' as (sg & found & I & J). apply Bool.not_true_iff_false in EN. apply EN.
      apply existsb_exists. exists (Sub sg found). split; [exact I|]. apply existsb_exists. exists t. split; [exact J|apply same_refl]. }
    rewrite (run_not_entering _ _ kin kout _ _ _ _ _ SE t KT EN'). rewrite O. cbn [filter]. rewrite (NC' steps _ i (incl_refl _) U1). cbn [negb filter].
    assert (V : Nat.ltb i (outs (old_in rg)) && has_parent (fold_left (do_step kin kout rg) steps h) (fst t) (r_new rg) = false).
    { destruct (Nat.ltb i (outs (old_in rg))) eqn:V; [|reflexivity]. simpl. destruct (has_parent _ (fst t) (r_new rg)) eqn:E; [|reflexivity]. exfalso. apply has_parent_iff in E.
      destruct (in_dec Nat.eq_dec (fst t) (moved steps)) as [M|M].
      - apply EN'. split; [destruct (TY _ _ LI) as [T _]; apply T; now apply Nat.ltb_lt|]. destruct (moved_group _ _ M) as (g & G & MG). exists g, (old_in rg, i).
        split; [exact G|]. split; [exact MG|]. split; [exact LI|]. split; [exact R1|]. intros X. apply U1. eapply group_moved; eauto.
      - rewrite (unmoved_parent kin kout rg steps h _ M) in E. apply (proj1 KT). eapply within_child; [exact E|constructor]. }
    unfold stays. cbn [fst snd]. rewrite Nat.eqb_refl, HO, V. cbn [andb orb negb map app filter fst snd]. rewrite BI, BN. reflexivity.
Qed.

Lemma C96_found_partial_pf :
  forall ins outs kin kout rg steps h depth root, setting ins outs rg steps h depth root -> typed ins outs kin kout h ->
    forall before_ sg found after s t, steps = before_ ++ Sub sg found :: after -> In (fst t) (sg_nodes sg) ->
    enters ins rg steps h t -> only_source h s t -> kin t <> Uns -> (kin t = Par -> ~ In (fst s) (moved steps)) ->
    only_source (reassemble outs kin kout depth rg steps h) (found t) t.
Proof.
  intros ins outs kin kout rg steps h depth root SE TY before_ sg found after s t E JN EN O NU NP. apply only_iff in O. apply only_iff.
  destruct (entering_sources _ _ kin kout _ _ _ _ _ SE TY before_ sg found after s t E JN EN O NU) as (X & NX & M & ->).
  assert (IS : In (Sub sg found) steps) by (rewrite E; apply in_elt).
  assert (LI : In (s, t) (links h)) by (apply in_sources; rewrite O; now left).
  destruct (in_dec Nat.eq_dec (fst s) (moved steps)) as [MS|MS].
  - assert (CS : existsb (fun st => step_cuts kout st s) steps = true).
    { apply (step_cuts_iff _ _ _ _ _ _ _ _ SE). destruct (TY _ _ LI) as [T T']. split.
      - split; [apply T; apply EN|]. destruct (moved_group _ _ MS) as (g & G & MG). exists g, t. split; [exact G|]. split; [exact MG|]. split; [exact LI|].
        split; [apply (se_local _ _ _ _ _ _ _ SE _ M)|]. intros I. apply NX. rewrite <- (group_same _ _ _ _ _ _ _ SE _ _ _ G (sub_group _ _ _ IS) I JN). exact MG.
      - rewrite <- T'. destruct (kin t); [reflexivity|exfalso; now apply NP|contradiction]. }
    rewrite CS. reflexivity.
  - rewrite (child_beneath _ _ kin kout _ _ _ _ _ SE _ X MS), orb_true_r. reflexivity.
Qed.

Lemma C96_outputs_pf :
  forall ins outs kin kout rg steps h depth root, setting ins outs rg steps h depth root -> forall s i,
    In (fst s) (moved steps) -> value_out outs s -> kout s <> Reg -> only_source h s (old_out rg, i) ->
    In (s, (new_out rg, i)) (links (reassemble outs kin kout depth rg steps h)).
Proof.
  intros ins outs kin kout rg steps h depth root SE s i M V K O. apply only_iff in O. eapply outputs_moved_aux; eauto.
Qed.

Lemma C96_shared_refuted_pf :
  forall ins outs kin kout rg steps h depth root, setting ins outs rg steps h depth root -> forall s t,
    kept rg steps h (fst t) -> only_source h s t -> ~ enters ins rg steps h t -> leaves outs rg steps h s -> kout s = Reg ->
    no_source (reassemble outs kin kout depth rg steps h) t.
Proof.
  intros ins outs kin kout rg steps h depth root SE s t KT O NE LE KR. apply only_iff in O. apply none_iff. rewrite reassemble_sources by (eapply kept_beneath; eauto).
  rewrite (run_not_entering _ _ kin kout _ _ _ _ _ SE t KT NE), O. cbn [filter].
  assert (C : existsb (fun st => step_cuts kout st s) steps = true) by (apply (step_cuts_iff _ _ _ _ _ _ _ _ SE); auto). rewrite C. reflexivity.
Qed.

Lemma C96_params_refuted_pf :
  forall ins outs kin kout rg steps h depth root, setting ins outs rg steps h depth root -> typed ins outs kin kout h ->
    forall before_ sg found after s t, steps = before_ ++ Sub sg found :: after -> In (fst t) (sg_nodes sg) ->
    enters ins rg steps h t -> only_source h s t -> kin t = Par -> In (fst s) (moved steps) ->
    let h' := reassemble outs kin kout depth rg steps h in
    In (s, t) (links h') /\ In (found t, t) (links h') /\ forall x, ~ only_source h' x t.
Proof.
  intros ins outs kin kout rg steps h depth root SE TY before_ sg found after s t E JN EN O KP MS h'. apply only_iff in O.
  destruct (entering_sources _ _ kin kout _ _ _ _ _ SE TY before_ sg found after s t E JN EN O ltac:(congruence)) as (X & NX & M & F).
  assert (LI : In (s, t) (links h)) by (apply in_sources; rewrite O; now left).
  assert (CS : existsb (fun st => step_cuts kout st s) steps = false).
  { destruct (existsb _ steps) eqn:C; [|reflexivity]. apply (step_cuts_iff _ _ _ _ _ _ _ _ SE) in C. destruct (TY _ _ LI) as [_ T]. destruct C as [_ C]. congruence. }
  rewrite CS, (in_new_beneath _ _ _ _ _ _ _ _ _ SE depth (fst s) (moved_parent kin kout rg steps h _ MS)) in F. simpl in F. fold h' in F.
  split; [apply in_sources; rewrite F; now left|]. split; [apply in_sources; rewrite F; right; now left|].
  intros x K. apply only_iff in K. rewrite F in K. discriminate.
Qed.

Lemma C96_nonlocal_refuted_pf :
  forall ins outs kin kout rg steps h depth root, setting ins outs rg steps h depth root -> forall s t,
    kept rg steps h (fst t) -> only_source h s t -> ~ enters ins rg steps h t -> encoded rg steps h (fst s) ->
    no_source (reassemble outs kin kout depth rg steps h) t.
Proof.
  intros ins outs kin kout rg steps h depth root SE s t KT O NE (E & NI & _ & NM). apply only_iff in O. apply none_iff. rewrite reassemble_sources by (eapply kept_beneath; eauto).
  rewrite (run_not_entering _ _ kin kout _ _ _ _ _ SE t KT NE), O. cbn [filter]. destruct (negb _); [|reflexivity]. cbn [filter]. unfold stays.
  apply Nat.eqb_neq in NI. rewrite NI. cbn [andb map app filter]. now rewrite (child_beneath _ _ kin kout _ _ _ _ _ SE _ E NM).
Qed.

