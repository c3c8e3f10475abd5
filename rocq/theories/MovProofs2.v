(** Lemmas for MovProps: the setting, and which nodes are removed. *)
From Coq Require Import List Arith Bool Lia FinFun.
From Verif Require Import MovModel MovSpec MovProofs.
Import ListNotations.

Lemma mem_iff : forall n l, existsb (Nat.eqb n) l = true <-> In n l.
Proof.
  intros n l. rewrite existsb_exists. split.
  - intros (x & I & E). apply Nat.eqb_eq in E. now subst.
  - intros I. exists n. split; [exact I|apply Nat.eqb_refl].
Qed.
Lemma mem_false : forall n l, existsb (Nat.eqb n) l = false <-> ~ In n l.
Proof. intros n l. rewrite <- mem_iff. destruct (existsb (Nat.eqb n) l); split; intros; congruence. Qed.
Lemma has_parent_iff : forall h n r, has_parent h n r = true <-> parent h n = Some r.
Proof. intros. unfold has_parent. destruct (parent h n) as [p|]; [|split; discriminate]. rewrite Nat.eqb_eq. split; [now intros ->|now intros E; inversion E]. Qed.
Lemma nodup_app : forall {A} (a b : list A), NoDup (a ++ b) -> NoDup a /\ NoDup b /\ forall x, In x a -> ~ In x b.
Proof.
  intros A a. induction a as [|x a IH]; intros b N; simpl in *; [split; [constructor|split; [exact N|intros ? []]]|].
  inversion N as [|? ? N1 N2]; subst. destruct (IH b N2) as (P & Q & K). split; [|split; [exact Q|]].
  - constructor; [|exact P]. intros I. apply N1. apply in_or_app. now left.
  - intros y [->|I]; [intros I; apply N1; apply in_or_app; now right|apply (K y I)].
Qed.
Lemma nodup_flat : forall (f : port -> bool) (k : nat -> nat) ns, NoDup ns -> NoDup (flat_map (fun n => filter f (ports n (k n))) ns).
Proof.
  intros f k ns. induction ns as [|n ns IH]; intros N; simpl; [constructor|]. inversion N as [|? ? N1 N2]; subst.
  assert (P : NoDup (filter f (ports n (k n)))).
  { apply NoDup_filter. unfold ports. apply FinFun.Injective_map_NoDup; [intros a b E; now inversion E|apply seq_NoDup]. }
  assert (Q : forall x, In x (filter f (ports n (k n))) -> ~ In x (flat_map (fun n => filter f (ports n (k n))) ns)).
  { intros x I J. apply filter_In in I. destruct I as [I _]. unfold ports in I. apply in_map_iff in I. destruct I as (i & <- & _).
    apply in_flat_map in J. destruct J as (m & Im & J). apply filter_In in J. destruct J as [J _]. unfold ports in J. apply in_map_iff in J.
    destruct J as (j & E & _). inversion E; subst. contradiction. }
  revert P Q. generalize (filter f (ports n (k n))). intros l. induction l as [|a l IHl]; intros P Q; simpl; [apply IH; exact N2|].
  inversion P as [|? ? P1 P2]; subst. constructor.
  - intros I. apply in_app_or in I. destruct I as [I|I]; [contradiction|]. apply (Q a (or_introl eq_refl) I).
  - apply IHl; [exact P2|]. intros x I. apply Q. now right.
Qed.

Section Setting.
Variables (ins outs : nat -> nat) (kin kout : port -> kind) (rg : regions) (steps : list step) (h : hugr) (depth root : nat).
Hypothesis SE : setting ins outs rg steps h depth root.

Let h' := fold_left (do_step kin kout rg) steps h.

Lemma within_depth : forall d, (forall n p, parent h n = Some p -> d p < d n) -> forall a n, within (parent h) a n -> d a <= d n.
Proof. intros d K a n W. induction W as [|n p E W IH]; [lia|]. pose proof (K _ _ E). lia. Qed.

Lemma not_under_child : forall m, parent h m = Some (r_old rg) -> ~ within (parent h) m (r_old rg).
Proof.
  intros m E W. destruct (se_depth _ _ _ _ _ _ _ SE) as (d & _ & K). pose proof (within_depth d K _ _ W). pose proof (K _ _ E). lia.
Qed.

Lemma outside_beneath : forall k n, ~ within (parent h) (r_old rg) n -> beneath k h' (r_old rg) n = false.
Proof.
  intros k. induction k as [|k IH]; intros n N; [reflexivity|]. simpl. unfold h' at 1. rewrite run_parent. destruct (existsb (Nat.eqb n) (moved steps)) eqn:M.
  - apply mem_iff in M. destruct (se_local _ _ _ _ _ _ _ SE n M) as (E & _). exfalso. apply N. eapply within_child; [exact E|constructor].
  - destruct (parent h n) as [p|] eqn:E; [|reflexivity]. assert (N' : ~ within (parent h) (r_old rg) p) by (intros W; apply N; eapply within_child; eauto).
    rewrite IH by exact N'. rewrite orb_false_r. apply Nat.eqb_neq. intros ->. apply N'. constructor.
Qed.
Lemma apart : r_new rg <> r_old rg.
Proof. destruct (se_apart _ _ _ _ _ _ _ SE) as [A _]. intros E. apply A. rewrite E. constructor. Qed.
Lemma in_new_beneath : forall k n, parent h' n = Some (r_new rg) -> beneath k h' (r_old rg) n = false.
Proof.
  intros [|k] n E; [reflexivity|]. simpl. rewrite E. rewrite outside_beneath by apply (se_apart _ _ _ _ _ _ _ SE).
  rewrite orb_false_r. apply Nat.eqb_neq. apply apart.
Qed.
Lemma moved_parent : forall n, In n (moved steps) -> parent h' n = Some (r_new rg).
Proof. intros n I. unfold h'. rewrite run_parent. apply mem_iff in I. now rewrite I. Qed.
Lemma unmoved_parent : forall n, ~ In n (moved steps) -> parent h' n = parent h n.
Proof. intros n I. unfold h'. rewrite run_parent. apply mem_false in I. now rewrite I. Qed.
Lemma inside_beneath : forall m n, In m (moved steps) -> within (parent h) m n -> forall k, beneath k h' (r_old rg) n = false.
Proof.
  intros m n I W. pose proof (not_under_child m (proj1 (se_local _ _ _ _ _ _ _ SE m I))) as NR. induction W as [|n p E W IH]; intros k; [apply in_new_beneath; now apply moved_parent|].
  destruct (in_dec Nat.eq_dec n (moved steps)) as [J|J]; [apply in_new_beneath; now apply moved_parent|]. destruct k as [|k]; [reflexivity|]. simpl.
  rewrite unmoved_parent, E by exact J. rewrite IH. rewrite orb_false_r. apply Nat.eqb_neq. intros ->. contradiction.
Qed.
Lemma kept_beneath : forall n k, kept rg steps h n -> beneath k h' (r_old rg) n = false.
Proof. intros n k (_ & [(m & I & W)|N]); [eapply inside_beneath; eauto|now apply outside_beneath]. Qed.
Lemma child_beneath : forall n, parent h n = Some (r_old rg) -> ~ In n (moved steps) -> beneath depth h' (r_old rg) n = true.
Proof.
  intros n E N. destruct (se_depth _ _ _ _ _ _ _ SE) as (d & D & _). pose proof (D n). destruct depth as [|k]; [lia|]. simpl. rewrite unmoved_parent, E by exact N.
  now rewrite Nat.eqb_refl.
Qed.
Lemma gone_beneath : forall n, gone rg steps h n -> beneath depth h' (r_old rg) n = true.
Proof.
  destruct (se_depth _ _ _ _ _ _ _ SE) as (d & D & K). assert (G : forall k n, d n < k -> gone rg steps h n -> beneath k h' (r_old rg) n = true).
  { intros k. induction k as [|k IH]; intros n L (W & N & M); [lia|]. simpl.
    assert (NM : ~ In n (moved steps)) by (intros I; apply (M n I); constructor). rewrite unmoved_parent by exact NM.
    inversion W as [|? p E W']; subst; [contradiction|]. rewrite E. destruct (Nat.eqb p (r_old rg)) eqn:Q; [reflexivity|]. simpl. apply Nat.eqb_neq in Q. apply IH.
    - pose proof (K _ _ E). lia.
    - split; [exact W'|]. split; [exact Q|]. intros m I V. apply (M m I). eapply within_child; eauto. }
  intros n. now apply G.
Qed.
Lemma child_gone : forall n, parent h n = Some (r_old rg) -> ~ In n (moved steps) -> gone rg steps h n.
Proof.
  intros n E N. split; [eapply within_child; [exact E|constructor]|]. split.
  - intros ->. destruct (se_depth _ _ _ _ _ _ _ SE) as (d & _ & K). pose proof (K _ _ E). lia.
  - intros m I W. inversion W as [|? p E' W']; subst; [contradiction|]. rewrite E in E'. injection E' as <-.
    apply (not_under_child m (proj1 (se_local _ _ _ _ _ _ _ SE m I)) W').
Qed.
Lemma child_kept : forall n, parent h n = Some (r_old rg) -> kept rg steps h n -> In n (moved steps).
Proof.
  intros n E K. destruct (in_dec Nat.eq_dec n (moved steps)) as [J|J]; [exact J|]. pose proof (child_beneath n E J). rewrite kept_beneath in H by exact K. discriminate.
Qed.
Lemma io_unmoved : ~ In (old_in rg) (moved steps) /\ ~ In (old_out rg) (moved steps).
Proof. split; intros I; destruct (se_local _ _ _ _ _ _ _ SE _ I) as (_ & A & B); congruence. Qed.
Lemma io_not_kept : ~ kept rg steps h (old_in rg) /\ ~ kept rg steps h (old_out rg) /\ ~ kept rg steps h (new_out rg) /\ ~ kept rg steps h (new_in rg).
Proof.
  destruct (se_region _ _ _ _ _ _ _ SE) as (A & B & _). destruct (se_new _ _ _ _ _ _ _ SE) as (C & D & _). destruct io_unmoved as [U V].
  split; [intros K; apply U; now apply child_kept|]. split; [intros K; apply V; now apply child_kept|].
  split; intros (K & _); apply K; (eapply within_child; [eassumption|constructor]).
Qed.
Lemma new_in_beneath : beneath depth h' (r_old rg) (new_in rg) = false.
Proof.
  apply in_new_beneath. destruct (se_new _ _ _ _ _ _ _ SE) as (C & _). destruct (in_dec Nat.eq_dec (new_in rg) (moved steps)) as [J|J]; [now apply moved_parent|].
  now rewrite unmoved_parent.
Qed.
Lemma in_out_differ : new_in rg <> old_in rg.
Proof.
  intros E. destruct (se_new _ _ _ _ _ _ _ SE) as (C & _). destruct (se_region _ _ _ _ _ _ _ SE) as (A & _). rewrite E, A in C. injection C as C. symmetry in C. now apply apart in C.
Qed.
Lemma new_unmoved : forall n, parent h n = Some (r_new rg) -> ~ In n (moved steps).
Proof. intros n E I. destruct (se_local _ _ _ _ _ _ _ SE _ I) as (A & _). rewrite A in E. injection E as E. symmetry in E. now apply apart in E. Qed.

(** Groups. *)
Lemma sub_group : forall sg found, In (Sub sg found) steps -> In (sg_nodes sg) (groups steps).
Proof. intros sg found I. unfold groups. apply in_flat_map. exists (Sub sg found). split; [exact I|now left]. Qed.
Lemma group_sub : forall g, In g (groups steps) -> exists sg found, In (Sub sg found) steps /\ sg_nodes sg = g.
Proof.
  intros g I. unfold groups in I. apply in_flat_map in I. destruct I as ([sg found|es] & I & J); simpl in J; [|destruct J]. destruct J as [<-|[]]. eauto.
Qed.
Lemma group_moved : forall g n, In g (groups steps) -> In n g -> In n (moved steps).
Proof. intros g n I J. unfold moved. apply in_concat. eauto. Qed.
Lemma moved_group : forall n, In n (moved steps) -> exists g, In g (groups steps) /\ In n g.
Proof. intros n I. unfold moved in I. apply in_concat in I. destruct I as (g & A & B). eauto. Qed.
Lemma concat_once : forall (l : list (list nat)), NoDup (concat l) ->
  (forall g, In g l -> NoDup g) /\ forall g g' n, In g l -> In g' l -> In n g -> In n g' -> g = g'.
Proof.
  intros l. induction l as [|a l IH]; intros N; simpl in *; [split; [intros ? []|intros ? ? ? []]|]. destruct (nodup_app _ _ N) as (P & Q & K). destruct (IH Q) as (U & V). split.
  - intros g [<-|I]; [exact P|now apply U].
  - intros g g' n [<-|I] [<-|I'] J J'; [reflexivity| | |eapply V; eauto]; exfalso; apply (K n); auto; apply in_concat; eauto.
Qed.
Lemma group_same : forall g g' n, In g (groups steps) -> In g' (groups steps) -> In n g -> In n g' -> g = g'.
Proof. apply concat_once. apply (se_once _ _ _ _ _ _ _ SE). Qed.
Lemma group_once : forall g, In g (groups steps) -> NoDup g.
Proof. apply concat_once. apply (se_once _ _ _ _ _ _ _ SE). Qed.

Lemma region_of : forall sg found n, In (Sub sg found) steps -> In n (sg_nodes sg) ->
  match sg_nodes sg with [] => root | n :: _ => match parent h n with Some p => p | None => root end end = r_old rg.
Proof.
  intros sg found n I J. pose proof (sub_group _ _ I) as G. destruct (sg_nodes sg) as [|m l]; [destruct J|].
  rewrite (proj1 (se_local _ _ _ _ _ _ _ SE m (group_moved _ m G (or_introl eq_refl)))). reflexivity.
Qed.
Lemma boundary_iff : forall g l, is_local_boundary h (r_old rg) g l = true <-> exists p, In p l /\ ~ In (fst p) g /\ parent h (fst p) = Some (r_old rg).
Proof.
  intros g l. unfold is_local_boundary. rewrite existsb_exists. split; intros (p & I & K); exists p; (split; [exact I|]).
  - apply andb_true_iff in K. destruct K as [A B]. apply negb_true_iff, mem_false in A. apply has_parent_iff in B. auto.
  - destruct K as [A B]. apply andb_true_iff. split; [now apply negb_true_iff, mem_false|now apply has_parent_iff].
Qed.
Lemma in_ports : forall p n k, In p (ports n k) <-> fst p = n /\ snd p < k.
Proof.
  intros [a b] n k. unfold ports. rewrite in_map_iff. simpl. split.
  - intros (i & E & I). inversion E; subst. apply in_seq in I. split; [reflexivity|lia].
  - intros [-> L]. exists b. split; [reflexivity|apply in_seq; lia].
Qed.
Lemma sub_in : forall sg found t, In (Sub sg found) steps -> (In t (sg_in sg) <->
  value_in ins t /\ In (fst t) (sg_nodes sg) /\ exists s, In (s, t) (links h) /\ parent h (fst s) = Some (r_old rg) /\ ~ In (fst s) (sg_nodes sg)).
Proof.
  intros sg found t I. rewrite (se_subs _ _ _ _ _ _ _ SE _ _ I) at 1. unfold try_from_nodes. cbn [sg_in]. rewrite in_flat_map. split.
  - intros (n & J & F). apply filter_In in F. destruct F as [F B]. apply in_ports in F. destruct F as [<- L]. rewrite (region_of _ _ _ I J) in B.
    apply boundary_iff in B. destruct B as (s & A & B & C). apply in_sources in A. split; [exact L|]. split; [exact J|]. eauto.
  - intros (L & J & s & A & B & C). exists (fst t). split; [exact J|]. apply filter_In. split; [apply in_ports; auto|]. rewrite (region_of _ _ _ I J).
    apply boundary_iff. exists s. split; [now apply in_sources|auto].
Qed.
Lemma sub_out : forall sg found s, In (Sub sg found) steps -> (In s (sg_out sg) <->
  value_out outs s /\ In (fst s) (sg_nodes sg) /\ exists t, In (s, t) (links h) /\ parent h (fst t) = Some (r_old rg) /\ ~ In (fst t) (sg_nodes sg)).
Proof.
  intros sg found s I. rewrite (se_subs _ _ _ _ _ _ _ SE _ _ I) at 1. unfold try_from_nodes. cbn [sg_out]. rewrite in_flat_map. split.
  - intros (n & J & F). apply filter_In in F. destruct F as [F B]. apply in_ports in F. destruct F as [<- L]. rewrite (region_of _ _ _ I J) in B.
    apply boundary_iff in B. destruct B as (t & A & B & C). apply in_targets in A. split; [exact L|]. split; [exact J|]. eauto.
  - intros (L & J & t & A & B & C). exists (fst s). split; [exact J|]. apply filter_In. split; [apply in_ports; auto|]. rewrite (region_of _ _ _ I J).
    apply boundary_iff. exists t. split; [now apply in_targets|auto].
Qed.
Lemma sub_in_once : forall sg found, In (Sub sg found) steps -> NoDup (sg_in sg).
Proof.
  intros sg found I. rewrite (se_subs _ _ _ _ _ _ _ SE _ _ I). unfold try_from_nodes. cbn [sg_in]. apply nodup_flat. eapply group_once. eapply sub_group; eauto.
Qed.
Lemma enters_sub : forall t, enters ins rg steps h t <-> exists sg found, In (Sub sg found) steps /\ In t (sg_in sg).
Proof.
  intros t. split.
  - intros (L & g & s & G & J & A & B & C). destruct (group_sub g G) as (sg & found & I & E). exists sg, found. split; [exact I|]. rewrite (sub_in sg found t I), E. eauto 8.
  - intros (sg & found & I & J). apply (sub_in sg found t I) in J. destruct J as (L & J & s & A & B & C). split; [exact L|]. exists (sg_nodes sg), s.
    split; [eapply sub_group; eauto|auto].
Qed.

Lemma cuts_iff : forall l x, cuts kout l x = true <-> In x l /\ kout x = Reg.
Proof.
  intros l x. unfold cuts. rewrite existsb_exists. split.
  - intros (s & I & K). apply andb_true_iff in K. destruct K as [E K]. apply same_iff in E. subst s. split; [exact I|]. destruct (kout x); [reflexivity|discriminate|discriminate].
  - intros [I K]. exists x. split; [exact I|]. rewrite same_refl, K. reflexivity.
Qed.
Lemma step_cuts_iff : forall x, existsb (fun st => step_cuts kout st x) steps = true <-> leaves outs rg steps h x /\ kout x = Reg.
Proof.
  intros x. rewrite existsb_exists. split.
  - intros ([sg found|es] & I & K); simpl in K; [|discriminate]. apply cuts_iff in K. destruct K as [J K]. split; [|exact K]. apply (sub_out sg found x I) in J.
    destruct J as (L & J & t & A & B & C). split; [exact L|]. exists (sg_nodes sg), t. split; [eapply sub_group; eauto|auto].
  - intros ((L & g & t & G & J & A & B & C) & K). destruct (group_sub g G) as (sg & found & I & E). exists (Sub sg found). split; [exact I|]. simpl. apply cuts_iff.
    split; [|exact K]. apply (sub_out sg found x I). rewrite E. eauto 8.
Qed.
Lemma step_cuts_moved : forall st x, In st steps -> step_cuts kout st x = true -> In (fst x) (moved [st]).
Proof.
  intros [sg found|es] x I K; simpl in K; [|discriminate]. apply cuts_iff in K. destruct K as [J _]. apply (sub_out sg found x I) in J. unfold moved, groups. simpl. rewrite app_nil_r. tauto.
Qed.

Lemma moved_app : forall a b, moved (a ++ b) = moved a ++ moved b.
Proof. intros. unfold moved, groups. now rewrite flat_map_app, concat_app. Qed.

(** The other steps do not touch the port. *)
Lemma made_elsewhere : forall t st, ~ within (parent h) (r_new rg) (fst t) -> In st steps -> (forall sg found, st = Sub sg found -> ~ In t (sg_in sg)) -> not_into t st.
Proof.
  intros t [sg found|es] N I K; simpl; [now apply (K sg found)|]. intros s J. apply N. eapply (se_made _ _ _ _ _ _ _ SE); eauto.
Qed.

Lemma run_not_entering : forall t, kept rg steps h (fst t) -> ~ enters ins rg steps h t ->
  linked_outputs h' t = filter (fun x => negb (existsb (fun st => step_cuts kout st x) steps)) (linked_outputs h t).
Proof.
  intros t K N. destruct io_not_kept as (_ & B & C & _). unfold h'. apply run_other; [intros E; rewrite E in K; contradiction|intros E; rewrite E in K; contradiction|].
  intros st I. apply made_elsewhere; [apply K|exact I|]. intros sg found -> J. apply N. apply enters_sub. eauto.
Qed.

Lemma run_entering : forall t before_ sg found after, steps = before_ ++ Sub sg found :: after -> In t (sg_in sg) ->
  let cutb := fun l x => existsb (fun st => step_cuts kout st x) l in
  let fs := filter (fun x => negb (cutb before_ x)) (linked_outputs h t) in
  linked_outputs h' t = filter (fun x => negb (cutb after x)) (filter (fun x => negb (cuts kout (sg_out sg) x)) (fs ++ added kin rg found fs t)).
Proof.
  intros t before_ sg found after E J cutb fs. assert (IS : In (Sub sg found) steps) by (rewrite E; apply in_elt).
  pose proof (proj1 (sub_in sg found t IS) J) as (L & JN & s0 & A0 & _). assert (M : In (fst t) (moved steps)) by (eapply group_moved; [eapply sub_group; eauto|exact JN]).
  destruct (se_local _ _ _ _ _ _ _ SE _ M) as (P & N1 & N2).
  assert (N3 : fst t <> new_out rg).
  { intros X. destruct (se_new _ _ _ _ _ _ _ SE) as (_ & Q & _). rewrite X in M. apply new_unmoved in Q. contradiction. }
  assert (ND : ~ within (parent h) (r_new rg) (fst t)) by (apply (se_links _ _ _ _ _ _ _ SE s0 t A0)).
  assert (Z : NoDup (moved before_ ++ sg_nodes sg ++ moved after)).
  { pose proof (se_once _ _ _ _ _ _ _ SE) as O. rewrite E, moved_app in O. exact O. }
  assert (NB : forall st, In st before_ \/ In st after -> not_into t st).
  { intros st W. apply made_elsewhere; [exact ND|rewrite E; apply in_or_app; destruct W; [now left|right; now right]|]. intros sg' found' -> J'.
    assert (I' : In (Sub sg' found') steps) by (rewrite E; apply in_or_app; destruct W; [now left|right; now right]).
    apply (sub_in sg' found' t I') in J'. destruct J' as (_ & J' & _). destruct (nodup_app _ _ Z) as (_ & Z2 & Z1). destruct (nodup_app _ _ Z2) as (_ & _ & Z3). destruct W as [W|W].
    - apply (Z1 (fst t)); [|apply in_or_app; now left]. unfold moved. apply in_concat. exists (sg_nodes sg'). split; [|exact J']. unfold groups. apply in_flat_map. exists (Sub sg' found'). split; [exact W|now left].
    - apply (Z3 (fst t) JN). unfold moved. apply in_concat. exists (sg_nodes sg'). split; [|exact J']. unfold groups. apply in_flat_map. exists (Sub sg' found'). split; [exact W|now left]. }
  unfold h'. rewrite E, fold_left_app. simpl fold_left. rewrite run_other; [|exact N2|exact N3|intros; apply NB; now right]. cbn [do_step].
  rewrite insert_self; [|exact N2|exact N3|eapply sub_in_once; eauto|exact J]. rewrite run_other; [|exact N2|exact N3|intros; apply NB; now left]. reflexivity.
Qed.
End Setting.
