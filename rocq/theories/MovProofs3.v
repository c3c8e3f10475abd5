(** Lemmas for MovProps: values that enter groups, and outputs of the region. *)
From Coq Require Import List Arith Bool Lia.
From Verif Require Import MovModel MovSpec MovProofs MovProofs2.
Import ListNotations.

Section Setting.
Variables (ins outs : nat -> nat) (kin kout : port -> kind) (rg : regions) (steps : list step) (h : hugr) (depth root : nat).
Hypothesis SE : setting ins outs rg steps h depth root.

Let h' := fold_left (do_step kin kout rg) steps h.

Lemma entering_sources : typed ins outs kin kout h ->
  forall before_ sg found after s t, steps = before_ ++ Sub sg found :: after -> In (fst t) (sg_nodes sg) ->
    enters ins rg steps h t -> linked_outputs h t = [s] -> kin t <> Uns ->
    parent h (fst s) = Some (r_old rg) /\ ~ In (fst s) (sg_nodes sg) /\ In (fst t) (moved steps) /\
    linked_outputs (reassemble outs kin kout depth rg steps h) t =
      (if existsb (fun st => step_cuts kout st s) steps || beneath depth h' (r_old rg) (fst s) then [] else [s]) ++ [found t].
Proof.
  intros TY before_ sg found after s t E JN EN O NU.
  assert (IS : In (Sub sg found) steps) by (rewrite E; apply in_elt).
  assert (LI : In (s, t) (links h)) by (apply in_sources; rewrite O; now left).
  assert (M : In (fst t) (moved steps)) by (eapply group_moved; [eapply sub_group; eauto|exact JN]).
  assert (X : parent h (fst s) = Some (r_old rg) /\ ~ In (fst s) (sg_nodes sg)).
  { destruct EN as (_ & g & s' & G & J & A & B & C). apply in_sources in A. rewrite O in A. destruct A as [<-|[]].
    rewrite (group_same _ _ _ _ _ _ _ SE _ _ _ G (sub_group _ _ _ IS) J JN) in C. auto. }
  split; [apply X|]. split; [apply X|]. split; [exact M|].
  assert (J : In t (sg_in sg)).
  { apply (sub_in _ _ _ _ _ _ _ SE sg found t IS). split; [apply EN|]. split; [exact JN|]. exists s. tauto. }
  rewrite reassemble_sources by (eapply in_new_beneath; [exact SE|now apply moved_parent]). fold h'.
  assert (K : added kin rg found (filter (fun x => negb (existsb (fun st => step_cuts kout st x) before_)) [s]) t = [found t]).
  { unfold added. destruct (kin t); [reflexivity|reflexivity|contradiction]. }
  assert (R : linked_outputs h' t = (if existsb (fun st => step_cuts kout st s) steps then [] else [s]) ++
     filter (fun x => negb (existsb (fun st => step_cuts kout st x) after)) (filter (fun x => negb (cuts kout (sg_out sg) x)) [found t])).
  { unfold h'. rewrite (run_entering _ _ kin kout _ _ _ _ _ SE t before_ sg found after E J). rewrite O, K. rewrite !filter_app. f_equal.
    rewrite E at 1. rewrite existsb_app. cbn [existsb step_cuts]. rewrite !filter_filter. cbn [filter].
    destruct (existsb (fun st => step_cuts kout st s) before_); [reflexivity|]. destruct (cuts kout (sg_out sg) s); [reflexivity|].
    destruct (existsb (fun st => step_cuts kout st s) after); reflexivity. }
  pose proof (se_found _ _ _ _ _ _ _ SE before_ sg found after E t J) as FW.
  assert (ZZ : NoDup (moved before_ ++ sg_nodes sg ++ moved after)).
  { pose proof (se_once _ _ _ _ _ _ _ SE) as Q. rewrite E, moved_app in Q. exact Q. }
  destruct (nodup_app _ _ ZZ) as (_ & Z2 & Z1).
  assert (NF : ~ In (fst (found t)) (sg_nodes sg ++ moved after)).
  { intros I. destruct FW as [FW|FW]; [|now apply (Z1 _ FW)]. apply (new_unmoved _ _ _ _ _ _ _ SE _ FW). rewrite E, moved_app. apply in_or_app. now right. }
  assert (C1 : cuts kout (sg_out sg) (found t) = false).
  { destruct (cuts kout (sg_out sg) (found t)) eqn:C; [|reflexivity]. exfalso. apply NF. apply in_or_app. left. apply cuts_iff in C. destruct C as [C _].
    apply (sub_out _ _ _ _ _ _ _ SE sg found _ IS) in C. apply C. }
  assert (C2 : existsb (fun st => step_cuts kout st (found t)) after = false).
  { destruct (existsb _ after) eqn:C; [|reflexivity]. exfalso. apply NF. apply in_or_app. right. apply existsb_exists in C. destruct C as (st & I & C).
    apply (step_cuts_moved _ _ kout _ _ _ _ _ SE) in C; [|rewrite E; apply in_or_app; right; now right].
    destruct (in_split _ _ I) as (x & y & ->). rewrite moved_app. apply in_or_app. right. change (st :: y) with ([st] ++ y). rewrite moved_app. apply in_or_app. now left. }
  assert (NI : fst (found t) <> old_in rg).
  { intros Q. destruct (se_region _ _ _ _ _ _ _ SE) as (R1 & _). destruct FW as [FW|FW].
    - rewrite Q, R1 in FW. injection FW as FW. symmetry in FW. now apply (apart _ _ _ _ _ _ _ SE) in FW.
    - apply (proj1 (io_unmoved _ _ _ _ _ _ _ SE)). rewrite <- Q, E, moved_app. apply in_or_app. now left. }
  assert (BF : beneath depth h' (r_old rg) (fst (found t)) = false).
  { eapply in_new_beneath; [exact SE|]. destruct FW as [FW|FW].
    - rewrite (unmoved_parent kin kout rg steps h); [exact FW|]. eapply new_unmoved; eauto.
    - apply moved_parent. rewrite E, moved_app. apply in_or_app. now left. }
  assert (HO : has_parent h' (fst t) (r_old rg) = false).
  { pose proof (moved_parent kin kout rg steps h _ M) as P. unfold has_parent, h'. rewrite P. apply Nat.eqb_neq. eapply apart; eauto. }
  assert (HN : has_parent h' (fst t) (r_new rg) = true) by (apply has_parent_iff; now apply moved_parent).
  assert (ST1 : stays outs rg h' t (found t) = false) by (unfold stays; apply Nat.eqb_neq in NI; now rewrite NI).
  assert (ST2 : stays outs rg h' t s = false).
  { unfold stays. rewrite HO, HN, andb_true_r. simpl. destruct (Nat.eqb (fst s) (old_in rg)) eqn:Q; [|reflexivity]. simpl. apply Nat.eqb_eq in Q.
    apply negb_false_iff, Nat.ltb_lt. rewrite <- Q. apply (TY _ _ LI). apply EN. }
  rewrite R. cbn [filter]. rewrite C1. cbn [negb filter]. rewrite C2. cbn [negb].
  destruct (existsb (fun st => step_cuts kout st s) steps); cbn [app filter orb].
  - rewrite ST1. cbn [map app filter]. now rewrite BF.
  - rewrite ST1, ST2. cbn [map app filter]. rewrite BF. destruct (beneath depth h' (r_old rg) (fst s)); reflexivity.
Qed.

(** Outputs. *)
Section Outputs.
Variables (s : port) (i : nat).
Hypothesis (MV : In (fst s) (moved steps)) (VO : value_out outs s) (KR : kout s <> Reg) (ON : linked_outputs h (old_out rg, i) = [s]).

Let done_ (g : hugr) : Prop := In (s, (new_out rg, i)) (links g).
Let wait (g : hugr) : Prop := linked_outputs g (old_out rg, i) = [s].

Lemma outs_differ : old_out rg <> new_out rg.
Proof.
  intros E. destruct (se_new _ _ _ _ _ _ _ SE) as (_ & C & _). destruct (se_region _ _ _ _ _ _ _ SE) as (_ & A & _). rewrite <- E, A in C. injection C as C.
  symmetry in C. now apply (apart _ _ _ _ _ _ _ SE) in C.
Qed.
Lemma done_connect : forall g a b, done_ g -> done_ (connect g a b).
Proof. intros g a b D. unfold done_, connect. simpl. apply in_or_app. now left. Qed.
Lemma done_input : forall g j, done_ g -> done_ (disconnect_input g (old_out rg, j)).
Proof.
  intros g j D. unfold done_, disconnect_input. simpl. apply filter_In. split; [exact D|]. simpl. rewrite same_false; [reflexivity|]. intros E. injection E as E _.
  symmetry in E. now apply outs_differ in E.
Qed.
Lemma done_rewire_input : forall found g t, done_ g -> done_ (rewire_input kin rg found g t).
Proof.
  intros found g t D. unfold rewire_input. destruct (kin t); try now apply done_connect. destruct (linked_outputs g t) as [|x [|]]; try exact D.
  destruct (fst x =? old_in rg); [now apply done_connect|exact D].
Qed.
Lemma done_ends : forall x l g, done_ g -> done_ (fold_left (fun h t => if Nat.eqb (fst t) (old_out rg)
    then connect (disconnect_input h (old_out rg, snd t)) x (new_out rg, snd t) else h) l g).
Proof.
  intros x l. induction l as [|t l IH]; intros g D; simpl; [exact D|]. apply IH. destruct (fst t =? old_out rg); [|exact D]. apply done_connect. now apply done_input.
Qed.
Lemma done_rewire_output : forall g x, done_ g -> done_ (rewire_output kout rg g x).
Proof.
  intros g x D. unfold rewire_output. destruct (kout x) eqn:K; try now apply done_ends. unfold done_, disconnect_output. simpl. apply filter_In. split; [exact D|].
  simpl. rewrite same_false; [reflexivity|]. intros ->. contradiction.
Qed.

Lemma wait_ends : forall x l g, (forall t, In t l -> t <> (old_out rg, i)) -> wait g -> wait (fold_left (fun h t => if Nat.eqb (fst t) (old_out rg)
    then connect (disconnect_input h (old_out rg, snd t)) x (new_out rg, snd t) else h) l g).
Proof.
  intros x l. induction l as [|t l IH]; intros g N W; simpl; [exact W|]. apply IH; [intros; apply N; now right|]. destruct (fst t =? old_out rg) eqn:E; [|exact W].
  apply Nat.eqb_eq in E. unfold wait. rewrite sources_connect, same_false, app_nil_r by (intros Q; injection Q as Q _; symmetry in Q; now apply outs_differ in Q).
  rewrite sources_disconnect_input; [exact W|]. intros Q. apply (N t (or_introl eq_refl)). destruct t as [a b]. simpl in *. congruence.
Qed.
Lemma wait_rewire_output : forall g x, wait g -> if same x s then done_ (rewire_output kout rg g x) else wait (rewire_output kout rg g x).
Proof.
  intros g x W. destruct (same x s) eqn:E.
  - apply same_iff in E. subst x. assert (I : In (old_out rg, i) (linked_inputs g s)) by (apply in_targets, in_sources; rewrite W; now left).
    assert (F : done_ (fold_left (fun h t => if Nat.eqb (fst t) (old_out rg)
      then connect (disconnect_input h (old_out rg, snd t)) s (new_out rg, snd t) else h) (linked_inputs g s) g)).
    { destruct (in_split _ _ I) as (a & b & ->). rewrite fold_left_app. cbn [fold_left fst snd]. rewrite Nat.eqb_refl. apply done_ends. unfold done_, connect. simpl.
      apply in_or_app. right. now left. }
    unfold rewire_output. destruct (kout s); [contradiction|exact F|exact F].
  - assert (N : x <> s) by (intros ->; rewrite same_refl in E; discriminate).
    assert (T : forall t, In t (linked_inputs g x) -> t <> (old_out rg, i)).
    { intros t I ->. apply in_targets, in_sources in I. unfold wait in W. rewrite W in I. destruct I as [I|[]]. now subst. }
    unfold rewire_output. destruct (kout x); [|now apply wait_ends|now apply wait_ends].
    unfold wait. rewrite sources_disconnect. unfold wait in W. rewrite W. simpl. rewrite same_false by auto. reflexivity.
Qed.
Lemma outputs_fold : forall l g, done_ g \/ wait g /\ True -> (done_ g -> done_ (fold_left (rewire_output kout rg) l g)) /\
  (wait g -> (In s l -> done_ (fold_left (rewire_output kout rg) l g)) /\ (~ In s l -> wait (fold_left (rewire_output kout rg) l g))).
Proof.
  intros l g _. revert g. induction l as [|x l IH]; intros g; simpl; [split; [auto|intros W; split; [intros []|auto]]|]. split.
  - intros D. apply (proj1 (IH _)). now apply done_rewire_output.
  - intros W. pose proof (wait_rewire_output g x W) as K. destruct (same x s) eqn:E.
    + apply same_iff in E. subst x. split; [intros _; now apply (proj1 (IH _))|]. intros N. exfalso. apply N. now left.
    + destruct (proj2 (IH _) K) as [P Q]. split.
      * intros [->|I]; [rewrite same_refl in E; discriminate|now apply P].
      * intros N. apply Q. intros I. apply N. now right.
Qed.

Lemma old_out_in : forall sg found j, In (Sub sg found) steps -> ~ In (old_out rg, j) (sg_in sg).
Proof.
  intros sg found j I J. apply (sub_in _ _ _ _ _ _ _ SE sg found _ I) in J. destruct J as (_ & J & _). apply (proj2 (io_unmoved _ _ _ _ _ _ _ SE)).
  eapply group_moved; [eapply sub_group; eauto|exact J].
Qed.
Lemma done_inputs : forall found l g, done_ g -> done_ (fold_left (rewire_input kin rg found) l g).
Proof. intros found l. induction l as [|t l IH]; intros g D; simpl; [exact D|]. apply IH. now apply done_rewire_input. Qed.
Lemma done_steps : forall l g, done_ g -> done_ (fold_left (do_step kin kout rg) l g).
Proof.
  intros l. induction l as [|[sg found|es] l IH]; intros g D; simpl; [exact D| |].
  - apply IH. unfold insert_external. apply (proj1 (outputs_fold (sg_out sg) _ (or_introl ltac:(apply done_inputs; unfold done_; rewrite move_links; exact D)))).
    apply done_inputs. unfold done_. now rewrite move_links.
  - apply IH. unfold done_. simpl. apply in_or_app. now left.
Qed.

Lemma steps_done : forall l g, incl l steps -> wait g -> (exists sg found, In (Sub sg found) l /\ In s (sg_out sg)) ->
  done_ (fold_left (do_step kin kout rg) l g).
Proof.
  intros l. induction l as [|st l IH]; intros g L W (sg & found & I & J); [destruct I|].
  assert (L' : incl l steps) by (intros x X; apply L; now right). pose proof (L st (or_introl eq_refl)) as IST. simpl. destruct st as [sg' found'|es].
  - assert (W' : wait (fold_left (rewire_input kin rg found') (sg_in sg') (fold_left (set_parent (r_new rg)) (sg_nodes sg') g))).
    { unfold wait. rewrite rewire_inputs_other by (eapply old_out_in; eauto). unfold linked_outputs. rewrite move_links. exact W. }
    destruct (proj2 (outputs_fold (sg_out sg') _ (or_intror (conj W' Logic.I))) W') as [P Q]. cbn [do_step]. unfold insert_external.
    assert (DEC : In s (sg_out sg') \/ ~ In s (sg_out sg')) by (destruct (in_dec (fun p q : port => ltac:(repeat decide equality) : {p = q} + {p <> q}) s (sg_out sg')); auto).
    destruct DEC as [D|D].
    + apply done_steps. now apply P.
    + apply IH; [exact L'|now apply Q|]. exists sg, found. destruct I as [E|I]; [injection E as -> ->; contradiction|auto].
  - apply IH; [exact L'| |destruct I as [E|I]; [discriminate|eauto]]. unfold wait, linked_outputs. simpl. rewrite filter_app, map_app. rewrite (filter_nil _ es).
    + rewrite app_nil_r. exact W.
    + intros [a b] IE. simpl. apply same_false. intros ->.
      assert (LI : In (s, (old_out rg, i)) (links h)) by (apply in_sources; rewrite ON; now left).
      apply (proj2 (se_links _ _ _ _ _ _ _ SE _ _ LI)). eapply (se_made _ _ _ _ _ _ _ SE); eauto.
Qed.

Lemma outputs_moved_aux : In (s, (new_out rg, i)) (links (reassemble outs kin kout depth rg steps h)).
Proof.
  assert (LI : In (s, (old_out rg, i)) (links h)) by (apply in_sources; rewrite ON; now left).
  destruct (moved_group _ _ MV) as (g & G & MG). destruct (group_sub _ _ G) as (sg & found & I & E).
  assert (D : done_ h').
  { apply steps_done; [apply incl_refl|exact ON|]. exists sg, found. split; [exact I|]. apply (sub_out _ _ _ _ _ _ _ SE sg found _ I). split; [exact VO|]. rewrite E. split; [exact MG|].
    exists (old_out rg, i). split; [exact LI|]. split; [apply (se_region _ _ _ _ _ _ _ SE)|]. intros X. apply (proj2 (io_unmoved _ _ _ _ _ _ _ SE)). eapply group_moved; eauto. }
  unfold reassemble. fold h'. apply in_sources. rewrite replace_sources.
  - apply filter_In. split.
    + rewrite nonlocal_sources. apply in_or_app. left. apply in_sources. exact D.
    + rewrite (beneath_ext _ _ h' _ _ (nonlocal_parent outs rg h')). apply negb_true_iff. eapply in_new_beneath; [exact SE|now apply moved_parent].
  - rewrite (beneath_ext _ _ h' _ _ (nonlocal_parent outs rg h')). cbn [fst]. eapply in_new_beneath; [exact SE|]. destruct (se_new _ _ _ _ _ _ _ SE) as (_ & C & _).
    fold h'. unfold h'. rewrite unmoved_parent; [exact C|]. eapply new_unmoved; eauto.
Qed.
End Outputs.
End Setting.
