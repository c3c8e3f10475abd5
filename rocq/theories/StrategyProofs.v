(** Lemmas on rewriting strategies. *)
From Coq Require Import ZArith List Bool Lia Permutation Sorted.
From Verif Require Import PQueueSpec CostSpec CostModel CostProofs StrategySpec StrategyModel.
Import ListNotations.
Open Scope Z_scope.

Lemma mem_In : forall n l, mem n l = true <-> In n l.
Proof.
  intros. unfold mem. rewrite existsb_exists. split.
  - intros (x & Hx & E). apply Nat.eqb_eq in E. subst. assumption.
  - intro. exists n. split; [assumption|apply Nat.eqb_refl].
Qed.
Lemma mem_not : forall n l, mem n l = false <-> ~ In n l.
Proof. intros. rewrite <- mem_In. destruct (mem n l); split; intros; congruence. Qed.

Lemma existsb_mem : forall a b, existsb (fun n => mem n b) a = true <-> overlap a b.
Proof.
  intros. rewrite existsb_exists. unfold overlap. split; intros (n & H1 & H2); exists n; split; auto; apply mem_In; assumption.
Qed.

(** Sorting. *)
Lemma insert_perm : forall (A K : Type) (leb : K -> K -> bool) (key : A -> K) x l,
  Permutation (insert_by leb key x l) (x :: l).
Proof.
  induction l as [|y r IH]; simpl; [reflexivity|]. destruct (leb (key x) (key y)); [reflexivity|].
  rewrite IH. apply perm_swap.
Qed.
Lemma sort_perm : forall (A K : Type) (leb : K -> K -> bool) (key : A -> K) l,
  Permutation (sorted_by_key leb key l) l.
Proof. induction l; simpl; [reflexivity|]. rewrite insert_perm. constructor. assumption. Qed.

Section Sorted.
Variables (A K : Type) (leb : K -> K -> bool) (key : A -> K).
Hypothesis leb_total : forall a b, leb a b = true \/ leb b a = true.
Hypothesis leb_trans : forall a b c, leb a b = true -> leb b c = true -> leb a c = true.
Definition key_le (x y : A) : Prop := leb (key x) (key y) = true.
Lemma insert_sorted : forall x l, StronglySorted key_le l -> StronglySorted key_le (insert_by leb key x l).
Proof.
  induction l as [|y r IH]; simpl; intro H.
  - constructor; [constructor|constructor].
  - inversion H as [|? ? Hr Hy]; subst. destruct (leb (key x) (key y)) eqn:E.
    + constructor; [assumption|]. constructor; [exact E|]. rewrite Forall_forall in *. intros z Hz. eapply leb_trans; [exact E|]. apply Hy; assumption.
    + constructor; [auto|]. rewrite Forall_forall in *. intros z Hz.
      apply (Permutation_in z (insert_perm _ _ leb key x r)) in Hz. destruct Hz as [->|Hz].
      * destruct (leb_total (key z) (key y)) as [F|F]; [congruence|exact F].
      * apply Hy; assumption.
Qed.
Lemma sort_sorted : forall l, StronglySorted key_le (sorted_by_key leb key l).
Proof. induction l; simpl; [constructor|apply insert_sorted; assumption]. Qed.
End Sorted.

Lemma sorted_skipn : forall (A : Type) (R : A -> A -> Prop) n l, StronglySorted R l -> StronglySorted R (skipn n l).
Proof. induction n; simpl; intros; auto. destruct l; auto. inversion H; auto. Qed.

(** Applying a rewrite. *)
Section Strat.
Variable op : Type.
Variable fresh : list nat -> nat -> list nat.
Hypothesis fresh_len : forall l n, length (fresh l n) = n.
Hypothesis fresh_nodup : forall l n, NoDup (fresh l n).
Hypothesis fresh_new : forall l n x, In x (fresh l n) -> ~ In x l.
Notation circ := (circ op).
Notation rewrite := (rewrite op).

Lemma map_fst_combine : forall (B : Type) (a : list nat) (b : list B), length a = length b -> map fst (combine a b) = a.
Proof. induction a; destruct b; simpl; intros; try discriminate; auto. f_equal. apply IHa. lia. Qed.
Lemma map_snd_combine : forall (B : Type) (a : list nat) (b : list B), length a = length b -> map snd (combine a b) = b.
Proof. induction a; destruct b; simpl; intros; try discriminate; auto. f_equal. apply IHa. lia. Qed.

Lemma filter_split : forall (A : Type) (f : A -> bool) l,
  Permutation l (filter f l ++ filter (fun x => negb (f x)) l).
Proof.
  induction l as [|x l IH]; simpl; [reflexivity|]. destruct (f x); simpl.
  - constructor. assumption.
  - rewrite IH at 1. apply Permutation_middle.
Qed.
Lemma NoDup_ids_filter : forall (f : nat * op -> bool) (c : circ), NoDup (ids c) -> NoDup (ids (filter f c)).
Proof.
  induction c as [|[n o] c IH]; simpl; intro H; [constructor|]. inversion H; subst.
  destruct (f (n, o)); simpl; auto. constructor; auto. intro I. apply H2. unfold ids in *. apply in_map_iff in I.
  destruct I as (e & <- & He). apply in_map. apply filter_In in He. tauto.
Qed.
Lemma ids_In : forall (c : circ) n, In n (ids c) <-> exists o, In (n, o) c.
Proof.
  intros. unfold ids. rewrite in_map_iff. split.
  - intros ([m o] & <- & H). exists o. assumption.
  - intros (o & H). exists (n, o). auto.
Qed.
Lemma NoDup_app_intro : forall (A : Type) (a b : list A), NoDup a -> NoDup b -> (forall x, In x a -> ~ In x b) -> NoDup (a ++ b).
Proof.
  induction a; simpl; intros; auto. inversion H; subst. constructor.
  - rewrite in_app_iff. intros [I|I]; [contradiction|]. apply (H1 a); auto.
  - apply IHa; auto.
Qed.

Lemma apply_ok : forall rw (c : circ), NoDup (ids c) -> fits c rw ->
  exists c', apply op fresh rw c = Some c' /\ step c rw c' /\ NoDup (ids c') /\
    (forall e, In e c -> ~ In (fst e) (rw_nodes rw) -> In e c').
Proof.
  intros rw c ND [Nn Hin]. unfold apply.
  assert (F : forallb (fun n => mem n (ids c)) (rw_nodes rw) = true).
  { apply forallb_forall. intros n Hn. apply mem_In. auto. }
  rewrite F. eexists. split; [reflexivity|].
  set (kept := filter (fun e => negb (mem (fst e) (rw_nodes rw))) c).
  set (new := combine (fresh (ids kept) (length (rw_repl rw))) (rw_repl rw)).
  assert (Enew : ids new = fresh (ids kept) (length (rw_repl rw))) by (unfold ids, new; apply map_fst_combine; apply fresh_len).
  assert (NK : NoDup (ids kept)) by (apply NoDup_ids_filter; assumption).
  assert (ND' : NoDup (ids (kept ++ new))).
  { unfold ids. rewrite map_app. fold (ids kept) (ids new). rewrite Enew. apply NoDup_app_intro; auto.
    intros x H1 H2. apply fresh_new in H2. contradiction. }
  split; [|split; [assumption|]].
  - exists (filter (fun e => mem (fst e) (rw_nodes rw)) c), kept, new.
    split; [apply filter_split|]. split.
    + apply NoDup_Permutation; [apply NoDup_ids_filter; assumption|assumption|]. intro n. rewrite ids_In. split.
      * intros (o & H). apply filter_In in H. destruct H as [_ H]. apply mem_In in H. assumption.
      * intro H. destruct (proj1 (ids_In c n) (Hin n H)) as (o & Ho). exists o. apply filter_In. split; auto. apply mem_In. assumption.
    + split; [reflexivity|]. split; [|assumption]. unfold ops, new. apply map_snd_combine. apply fresh_len.
  - intros e He Hn. apply in_app_iff. left. apply filter_In. split; auto. apply mem_not in Hn. rewrite Hn. reflexivity.
Qed.

(** Measures. *)
Lemma weigh_perm : forall (w : op -> Z) a b, Permutation a b -> weigh w a = weigh w b.
Proof. intros. unfold weigh. apply zsum_perm. apply Permutation_map. assumption. Qed.
Lemma weigh_app : forall (w : op -> Z) a b, weigh w (a ++ b) = weigh w a + weigh w b.
Proof. intros. unfold weigh. rewrite map_app. apply zsum_app. Qed.

Lemma ops_perm : forall (w : op -> Z) (a b : circ), Permutation a b -> weigh w (ops a) = weigh w (ops b).
Proof. intros. apply weigh_perm. apply Permutation_map. assumption. Qed.
Lemma ops_app : forall a b : circ, ops (a ++ b) = ops a ++ ops b.
Proof. intros. apply map_app. Qed.

Lemma get_ops_ok : forall nodes (c : circ), NoDup (ids c) -> incl nodes (ids c) ->
  exists os, get_ops op nodes c = Some os /\ Forall2 (fun n o => In (n, o) c) nodes os.
Proof.
  induction nodes as [|n r IH]; simpl; intros c ND H; [exists []; split; auto|].
  destruct (IH c ND) as (os & E & F); [intros x Hx; apply H; right; assumption|].
  destruct (find (fun e => Nat.eqb (fst e) n) c) as [[m o]|] eqn:Ef.
  - rewrite E. apply find_some in Ef. destruct Ef as [Hi Em]. apply Nat.eqb_eq in Em. simpl in Em. subst. exists (o :: os). auto.
  - exfalso. destruct (proj1 (ids_In c n) (H n (or_introl eq_refl))) as (o & Ho).
    pose proof (find_none _ _ Ef _ Ho) as X. simpl in X. rewrite Nat.eqb_refl in X. discriminate.
Qed.

Lemma NoDup_ids_inj : forall (c : circ) n o o', NoDup (ids c) -> In (n, o) c -> In (n, o') c -> o = o'.
Proof.
  induction c as [|[m p] c IH]; simpl; intros n o o' ND H1 H2; [contradiction|]. inversion ND; subst.
  destruct H1 as [H1|H1], H2 as [H2|H2]; try congruence.
  - injection H1 as <- <-. exfalso. apply H3. apply ids_In. eauto.
  - injection H2 as <- <-. exfalso. apply H3. apply ids_In. eauto.
  - eauto.
Qed.

(** The operations named by a list of nodes, picked from a circuit: same weight whichever way. *)
Lemma matched_weight : forall (w : op -> Z) (c matched kept : circ) nodes os,
  NoDup (ids c) -> Permutation c (matched ++ kept) -> Permutation (ids matched) nodes ->
  Forall2 (fun n o => In (n, o) c) nodes os -> weigh w (ops matched) = weigh w os.
Proof.
  intros w c matched kept nodes os ND HP Hn F.
  assert (E : exists m', Permutation matched m' /\ ids m' = nodes).
  { apply Permutation_sym in Hn. unfold ids in Hn. apply Permutation_map_inv in Hn. destruct Hn as (m' & E & Hm).
    exists m'. split; [assumption|symmetry; exact E]. }
  destruct E as (m' & Hm & <-). rewrite (ops_perm w _ _ Hm).
  assert (Hin : forall e, In e m' -> In e c).
  { intros e He. apply (Permutation_in e (Permutation_sym HP)). apply in_app_iff. left. apply (Permutation_in e (Permutation_sym Hm)). assumption. }
  clear - F Hin ND. revert os F. induction m' as [|[n o] m' IH]; simpl; intros os F; inversion F; subst; [reflexivity|].
  assert (o = y) by (eapply NoDup_ids_inj; [exact ND|apply Hin; left; reflexivity|assumption]). subst.
  unfold weigh in *. simpl. rewrite (IH (fun e h => Hin e (or_intror h)) l') by assumption. reflexivity.
Qed.

Lemma step_weight : forall (w : op -> Z) (c c' : circ) rw os, NoDup (ids c) -> step c rw c' ->
  Forall2 (fun n o => In (n, o) c) (rw_nodes rw) os ->
  weigh w (ops c') = weigh w (ops c) - weigh w os + weigh w (rw_repl rw).
Proof.
  intros w c c' rw os ND (m & k & nw & P1 & P2 & P3 & E & ND') F.
  rewrite (ops_perm w _ _ P1), (ops_perm w _ _ P3), !ops_app, !weigh_app. rewrite E, (matched_weight w c m k (rw_nodes rw) os); auto. lia.
Qed.

(** The greedy strategy. *)
Section Greedy.
Variable num_ops : op -> Z.
Notation ncd := (node_count_delta op num_ops).
Variable c0 : circ.
Hypothesis ND0 : NoDup (ids c0).

Definition untouched (changed : list nat) (c : circ) : Prop :=
  forall e, In e c0 -> ~ In (fst e) changed -> In e c.

Lemma fits_untouched : forall changed c rw, untouched changed c -> fits c0 rw ->
  ~ overlap (rw_nodes rw) changed -> fits c rw.
Proof.
  intros ch c rw U [Nn Hi] Ho. split; [assumption|]. intros n Hn. destruct (proj1 (ids_In c0 n) (Hi n Hn)) as (o & Hin).
  apply ids_In. exists o. apply U; [assumption|]. simpl. intro H. apply Ho. exists n. auto.
Qed.

Lemma num_operations_weigh : forall l, num_operations op num_ops l = weigh num_ops l.
Proof. induction l; simpl; auto. rewrite IHl. reflexivity. Qed.

Lemma greedy_loop_ok : forall rws changed delta c, NoDup (ids c) -> untouched changed c ->
  (forall rw, In rw rws -> fits c0 rw) -> StronglySorted (fun a b => ncd a <= ncd b) rws ->
  exists c' applied, greedy_loop op fresh num_ops rws changed delta c = Some (c', delta + zsum (map ncd applied)) /\
    steps c applied c' /\ NoDup (ids c') /\ (forall r, In r applied -> In r rws) /\
    pairwise_disjoint (map rw_nodes applied) /\
    (forall r, In r applied -> ~ overlap (rw_nodes r) changed) /\
    StronglySorted (fun a b => ncd a <= ncd b) applied /\
    (forall r, In r rws -> In r applied \/ overlap (rw_nodes r) changed \/
       exists a, In a applied /\ overlap (rw_nodes r) (rw_nodes a) /\ ncd a <= ncd r) /\
    ((forall r o n, In r rws -> In n (rw_nodes r) -> In (n, o) c0 -> num_ops o = 1) ->
       weigh num_ops (ops c') = weigh num_ops (ops c) + zsum (map ncd applied)).
Proof.
  induction rws as [|rw rest IH]; intros changed delta c ND U Hf HS.
  - exists c, []. cbn. rewrite Z.add_0_r. repeat split; auto; try constructor; try contradiction. intros _. lia.
  - inversion HS as [|? ? HSr HSh]; subst. cbn [greedy_loop].
    destruct (existsb (fun n => mem n changed) (rw_nodes rw)) eqn:Eo.
    + apply existsb_mem in Eo.
      destruct (IH changed delta c ND U (fun r h => Hf r (or_intror h)) HSr) as (c' & ap & E & Hs & N' & Hin & Hd & Hc & Hso & Hm & Hw).
      exists c', ap. split; [exact E|]. split; [exact Hs|]. split; [exact N'|]. split; [intros; right; auto|].
      split; [exact Hd|]. split; [exact Hc|]. split; [exact Hso|]. split; [|intro H1; apply Hw; intros; eapply H1; eauto; right; eauto].
      intros r [<-|Hr]; auto.
    + assert (Ho : ~ overlap (rw_nodes rw) changed) by (intro H; apply existsb_mem in H; congruence).
      assert (Hfit : fits c rw) by (eapply fits_untouched; eauto; apply Hf; left; reflexivity).
      destruct (apply_ok rw c ND Hfit) as (c1 & Ea & St & ND1 & Hk). rewrite Ea.
      assert (U1 : untouched (rw_nodes rw ++ changed) c1).
      { intros e He Hn. apply Hk; [apply U; auto|]; intro; apply Hn; apply in_app_iff; auto. }
      destruct (IH (rw_nodes rw ++ changed) (delta + ncd rw) c1 ND1 U1 (fun r h => Hf r (or_intror h)) HSr)
        as (c' & ap & E & Hs & N' & Hin & Hd & Hc & Hso & Hm & Hw).
      exists c', (rw :: ap). split; [rewrite E; cbn [map zsum]; do 2 f_equal; lia|].
      split; [econstructor; eauto|]. split; [assumption|].
      split; [intros r [<-|Hr]; [left; reflexivity|right; auto]|].
      split.
      { cbn [map pairwise_disjoint]. split; [|exact Hd]. intros b Hb (n & H1 & H2). apply in_map_iff in Hb.
        destruct Hb as (r & <- & Hr). apply (Hc r Hr). exists n. split; [assumption|]. apply in_app_iff; auto. }
      split.
      { intros r [<-|Hr]; [assumption|]. intros (n & H1 & H2). apply (Hc r Hr). exists n. split; [assumption|apply in_app_iff; auto]. }
      split.
      { constructor; [assumption|]. rewrite Forall_forall in *. intros x Hx. apply HSh. auto. }
      split.
      { intros r [<-|Hr]; [left; left; reflexivity|]. destruct (Hm r Hr) as [H|[H|(a & Ha & Hb & Hl)]].
        - left; right; assumption.
        - destruct H as (n & H1 & H2). apply in_app_iff in H2. destruct H2 as [H2|H2].
          + right; right. exists rw. split; [left; reflexivity|]. split; [exists n; auto|]. rewrite Forall_forall in HSh. auto.
          + right; left. exists n; auto.
        - right; right. exists a. split; [right; assumption|auto]. }
      intros H1. rewrite Hw by (intros; eapply H1; eauto; right; eauto).
      destruct Hfit as [Nn Hinn]. destruct (get_ops_ok (rw_nodes rw) c ND Hinn) as (os & _ & F).
      rewrite (step_weight num_ops c c1 rw os ND St F). cbn [map zsum].
      assert (Hw1 : weigh num_ops os = Z.of_nat (length (rw_nodes rw))).
      { destruct (Hf rw (or_introl eq_refl)) as [_ Hi0].
        assert (G : forall ns os, Forall2 (fun n o => In (n, o) c) ns os -> incl ns (rw_nodes rw) -> weigh num_ops os = Z.of_nat (length ns)).
        { induction 1 as [|n o ns os' Hno _ IHf]; intros Hi; [reflexivity|]. unfold weigh in *. cbn [map zsum length].
          rewrite IHf by (intros x Hx; apply Hi; right; assumption).
          assert (num_ops o = 1); [|lia]. specialize (Hi n (or_introl eq_refl)).
          destruct (proj1 (ids_In c0 n) (Hi0 n Hi)) as (o' & Ho').
          assert (o = o').
          { eapply NoDup_ids_inj; [exact ND|exact Hno|]. apply U; [assumption|]. simpl. intro Hx. apply Ho. exists n; auto. }
          subst. eapply H1; eauto. left; reflexivity. }
        apply G with (1 := F). apply incl_refl. }
      unfold node_count_delta at 2. rewrite num_operations_weigh, Hw1. lia.
Qed.
End Greedy.

Lemma take_while_In : forall (A : Type) (f : A -> bool) l x, In x (take_while f l) -> In x l /\ f x = true.
Proof.
  induction l; simpl; intros x H; [contradiction|]. destruct (f a) eqn:E; [|contradiction].
  destruct H as [<-|H]; auto. apply IHl in H. tauto.
Qed.
Lemma take_while_sorted : forall (A : Type) (R : A -> A -> Prop) f l, StronglySorted R l -> StronglySorted R (take_while f l).
Proof.
  induction l; simpl; intro H; [constructor|]. inversion H; subst. destruct (f a); constructor; auto.
  rewrite Forall_forall in *. intros x Hx. apply take_while_In in Hx. apply H3. tauto.
Qed.
Lemma take_while_all : forall l (f : rewrite -> Z), StronglySorted (fun a b => f a <= f b) l ->
  forall x, In x l -> f x < 0 -> In x (take_while (fun r => f r <? 0) l).
Proof.
  induction l; simpl; intros f HS x Hx Hl; [contradiction|]. inversion HS; subst.
  assert (f a < 0). { destruct Hx as [<-|Hx]; [assumption|]. rewrite Forall_forall in H2. specialize (H2 x Hx). lia. }
  destruct (Z.ltb_spec (f a) 0); [|lia]. destruct Hx as [<-|Hx]; [left; reflexivity|right; auto].
Qed.

(** The exhaustive strategies. *)
Section Exhaustive.
Variables (N : nat) (op_cost : op -> list Z) (thr : list Z -> list Z -> bool).
Hypothesis cost_len : forall o, length (op_cost o) = N.
Hypothesis cost_nonneg : forall o i, 0 <= component i (op_cost o).
Variable c0 : circ.
Hypothesis ND0 : NoDup (ids c0).
Definition w (i : nat) (o : op) : Z := component i (op_cost o).
Lemma w_nonneg : forall i l, 0 <= weigh (w i) l.
Proof. intros. unfold weigh. apply zsum_nonneg. intros x Hx. apply in_map_iff in Hx. destruct Hx as (o & <- & _). apply cost_nonneg. Qed.

Lemma sum_component : forall l, (forall i, (i < N)%nat -> weigh (w i) l < m64) ->
  length (cost_sum N (map op_cost l)) = N /\
  forall i, (i < N)%nat -> nth i (cost_sum N (map op_cost l)) 0 = weigh (w i) l.
Proof.
  intros l HB.
  assert (T : is_total N (map op_cost l) (cost_sum N (map op_cost l))).
  { apply cost_sum_total.
    - intros v Hv. apply in_map_iff in Hv. destruct Hv as (o & <- & _). apply cost_len.
    - intros v i Hv Hi. split; [apply in_map_iff in Hv; destruct Hv as (o & <- & _); apply cost_nonneg|].
      apply in_map_iff in Hv. destruct Hv as (o & <- & Ho). specialize (HB i Hi).
      clear - HB Ho cost_nonneg. revert HB. unfold weigh.
      induction l as [|x l IH]; simpl in *; [contradiction|]. intro HB.
      assert (0 <= zsum (map (w i) l)) by apply w_nonneg. assert (0 <= w i x) by apply cost_nonneg.
      destruct Ho as [->|Ho]; [unfold w in HB at 1; lia|]. apply IH; [assumption|lia].
    - intros i Hi. rewrite map_map. apply (HB i Hi). }
  destruct T as [L T]. split; [assumption|]. intros i Hi. rewrite <- component_nth, (T i Hi), map_map. reflexivity.
Qed.

(** The weight of the operations that a rewrite matches in the original circuit. *)
Definition pre (i : nat) (rw : rewrite) : Z :=
  match get_ops op (rw_nodes rw) c0 with Some os => weigh (w i) os | None => 0 end.
Definition post (i : nat) (rw : rewrite) : Z := weigh (w i) (rw_repl rw).

Lemma pre_le : forall rw i, fits c0 rw -> 0 <= pre i rw <= weigh (w i) (ops c0).
Proof.
  intros rw i [Nn Hi]. unfold pre. destruct (get_ops_ok (rw_nodes rw) c0 ND0 Hi) as (os & E & F). rewrite E.
  split; [apply w_nonneg|]. destruct (apply_ok rw c0 ND0 (conj Nn Hi)) as (c1 & _ & St & _ & _).
  destruct St as (m & k & nw & P1 & P2 & _). rewrite (ops_perm _ _ _ P1), ops_app, weigh_app.
  rewrite (matched_weight _ c0 m k (rw_nodes rw) os); auto. pose proof (w_nonneg i (ops k)). lia.
Qed.

Section Bound.
Variable all : list rewrite.
Hypothesis Hfits : forall rw, In rw all -> fits c0 rw.
(** No overflow: what the circuit and all replacements together cost fits in an isize. *)
Hypothesis Hbound : forall i, (i < N)%nat -> weigh (w i) (ops c0) + zsum (map (post i) all) < m63.

Lemma post_le_gen : forall l rw i, In rw l -> post i rw <= zsum (map (post i) l).
Proof.
  induction l as [|r l IH]; simpl; intros rw i H; [contradiction|].
  assert (0 <= zsum (map (post i) l)) by (apply zsum_nonneg; intros x Hx; apply in_map_iff in Hx; destruct Hx as (? & <- & _); apply w_nonneg).
  assert (0 <= post i r) by apply w_nonneg. destruct H as [->|H]; [lia|]. specialize (IH rw i H). lia.
Qed.
Lemma post_le : forall rw i, In rw all -> post i rw <= zsum (map (post i) all).
Proof. intros. apply post_le_gen. assumption. Qed.

Definition good_delta (rw : rewrite) (d : list Z) : Prop :=
  length d = N /\ forall i, (i < N)%nat -> nth i d 0 = post i rw - pre i rw.

Lemma m63_64 : m63 < m64. Proof. reflexivity. Qed.

Lemma pre_cost_ok : forall rw, In rw all ->
  exists p, pre_rewrite_cost op N op_cost rw c0 = Some p /\ length p = N /\
    (forall i, (i < N)%nat -> nth i p 0 = pre i rw).
Proof.
  intros rw Hin. destruct (Hfits rw Hin) as [Nn Hi]. unfold pre_rewrite_cost, pre.
  destruct (get_ops_ok (rw_nodes rw) c0 ND0 Hi) as (os & E & F). 
  assert (B : forall i, (i < N)%nat -> weigh (w i) os < m64).
  { intros i Hi'. pose proof (pre_le rw i (Hfits rw Hin)) as P. unfold pre in P. rewrite E in P.
    specialize (Hbound i Hi'). pose proof m63_64. pose proof (post_le rw i Hin). assert (0 <= post i rw) by apply w_nonneg. lia. }
  rewrite E. destruct (sum_component os B) as [L T]. eexists. split; [reflexivity|]. split; [exact L|exact T].
Qed.
Lemma post_cost_ok : forall rw, In rw all ->
  length (post_rewrite_cost op N op_cost rw) = N /\
  forall i, (i < N)%nat -> nth i (post_rewrite_cost op N op_cost rw) 0 = post i rw.
Proof.
  intros rw Hin. unfold post_rewrite_cost, circuit_cost. apply sum_component. intros i Hi.
  specialize (Hbound i Hi). pose proof (post_le rw i Hin). assert (0 <= weigh (w i) (ops c0)) by apply w_nonneg.
  pose proof m63_64. unfold post in *. lia.
Qed.

Lemma accepted_ok : forall rws, incl rws all ->
  exists acc, accepted_rewrites op N op_cost thr rws c0 = Some acc /\
    (forall rw d, In (rw, d) acc -> In rw rws /\ good_delta rw d /\
       exists p, pre_rewrite_cost op N op_cost rw c0 = Some p /\ thr p (post_rewrite_cost op N op_cost rw) = true) /\
    map fst acc = filter (fun rw => match pre_rewrite_cost op N op_cost rw c0 with
                                    | Some p => thr p (post_rewrite_cost op N op_cost rw) | None => false end) rws.
Proof.
  induction rws as [|rw rest IH]; intros Hinc; simpl.
  - exists []. split; auto. split; auto. intros ? ? [].
  - destruct IH as (acc & E & Ha & Em); [intros x Hx; apply Hinc; right; assumption|].
    assert (Hin : In rw all) by (apply Hinc; left; reflexivity).
    destruct (pre_cost_ok rw Hin) as (p & Ep & Lp & Tp). destruct (post_cost_ok rw Hin) as [Lq Tq].
    rewrite Ep, E. destruct (thr p (post_rewrite_cost op N op_cost rw)) eqn:Et.
    + eexists. split; [reflexivity|]. split; [|simpl; f_equal; assumption].
      intros r d [H|H].
      * injection H as <- <-. split; [left; reflexivity|]. split; [|exists p; auto]. split; [rewrite sub_cost_length; congruence|].
        intros i Hi. rewrite sub_cost_nth; [rewrite Tq, Tp by assumption; reflexivity|congruence|congruence| |].
        -- rewrite Tq by assumption. split; [apply w_nonneg|]. specialize (Hbound i Hi). pose proof (post_le rw i Hin).
           assert (0 <= weigh (w i) (ops c0)) by apply w_nonneg. lia.
        -- rewrite Tp by assumption. pose proof (pre_le rw i (Hfits rw Hin)). specialize (Hbound i Hi). pose proof (post_le rw i Hin).
           assert (0 <= post i rw) by apply w_nonneg. lia.
      * destruct (Ha r d H) as (H1 & H2 & H3). split; [right; assumption|auto].
    + exists acc. split; [reflexivity|]. split; [|assumption]. intros r d H. destruct (Ha r d H) as (H1 & H2 & H3). split; [right; assumption|auto].
Qed.

Notation inval := (invalidation_set op).

Lemma delta_add_nth : forall a b i, length a = length b -> (i < length a)%nat ->
  - m63 <= nth i a 0 + nth i b 0 < m63 -> nth i (delta_add a b) 0 = nth i a 0 + nth i b 0.
Proof. intros. unfold delta_add. rewrite zip_nth by assumption. apply wrapi_id. assumption. Qed.

Lemma exhaustive_loop_ok : forall rws changed delta count c, NoDup (ids c) -> untouched c0 changed c ->
  (forall rw d, In (rw, d) rws -> In rw all /\ good_delta rw d) ->
  StronglySorted (key_le _ _ cost_leb snd) rws ->
  length delta = N -> (forall i, (i < N)%nat -> nth i delta 0 = weigh (w i) (ops c) - weigh (w i) (ops c0)) ->
  (forall i, (i < N)%nat -> weigh (w i) (ops c) + zsum (map (fun e => post i (fst e)) rws) < m63) ->
  0 <= count < 65536 ->
  exists c' applied delta', exhaustive_loop op fresh rws changed delta count c
      = Some (c', delta', (count + Z.of_nat (length applied)) mod 65536) /\
    steps c (map fst applied) c' /\ NoDup (ids c') /\ (forall e, In e applied -> In e rws) /\
    pairwise_disjoint (map (fun e => inval (fst e)) applied) /\
    (forall e, In e applied -> ~ overlap (inval (fst e)) changed) /\
    StronglySorted (key_le _ _ cost_leb snd) applied /\
    (forall e, In e rws -> In e applied \/ overlap (inval (fst e)) changed \/
       exists a, In a applied /\ overlap (inval (fst e)) (inval (fst a)) /\ cost_leb (snd a) (snd e) = true) /\
    (changed = [] -> hd_error (map fst applied) = hd_error (map fst rws)) /\
    length delta' = N /\
    (forall i, (i < N)%nat -> nth i delta' 0 = weigh (w i) (ops c') - weigh (w i) (ops c0)) /\
    (forall i, (i < N)%nat -> weigh (w i) (ops c') = weigh (w i) (ops c) + zsum (map (fun e => nth i (snd e) 0) applied)).
Proof.
  induction rws as [|[rw d] rest IH]; intros changed delta count c ND U Hr HS Ld Hd HB Hc.
  - exists c, [], delta. cbn. rewrite Z.add_0_r, Z.mod_small by assumption. repeat split; auto; try constructor; try contradiction. intros; lia.
  - inversion HS as [|? ? HSr HSh]; subst. cbn [exhaustive_loop].
    destruct (Hr rw d (or_introl eq_refl)) as (Hall & Hg).
    assert (Pn : forall i, 0 <= post i rw) by (intro; apply w_nonneg).
    match goal with |- context [if ?b then _ else _] => destruct b eqn:Eo end.
    + apply andb_true_iff in Eo. destruct Eo as [Ech Eo]. apply existsb_mem in Eo.
      destruct (IH changed delta count c ND U (fun r d h => Hr r d (or_intror h)) HSr Ld Hd) as (c' & ap & d' & E & Hs & N' & Hin & Hdj & Hcc & Hso & Hm & Hf & Ld' & Hd' & Hz); auto.
      { intros i Hi. specialize (HB i Hi). cbn [map zsum fst] in HB. specialize (Pn i). lia. }
      exists c', ap, d'. split; [exact E|]. split; [exact Hs|]. split; [exact N'|]. split; [intros; right; auto|].
      split; [exact Hdj|]. split; [exact Hcc|]. split; [exact Hso|]. split; [intros e [<-|He]; auto|].
      split; [|auto]. intros ->. discriminate.
    + assert (Ho : ~ overlap (inval rw) changed).
      { intro H. apply andb_false_iff in Eo. destruct Eo as [Eo|Eo].
        - destruct changed; [destruct H as (n & _ & []) | discriminate].
        - apply existsb_mem in H. congruence. }
      assert (Ho' : ~ overlap (rw_nodes rw) changed).
      { intros (n & H1 & H2). apply Ho. exists n. split; [apply in_app_iff; auto|assumption]. }
      assert (Hfit : fits c rw) by (eapply fits_untouched; eauto).
      destruct (apply_ok rw c ND Hfit) as (c1 & Ea & St & ND1 & Hk). rewrite Ea.
      assert (U1 : untouched c0 (inval rw ++ changed) c1).
      { intros e He Hn. apply Hk; [apply U; auto|]; intro; apply Hn; unfold invalidation_set; rewrite !in_app_iff; auto. }
      (* weights *)
      assert (W1 : forall i, weigh (w i) (ops c1) = weigh (w i) (ops c) - pre i rw + post i rw).
      { intro i. destruct (Hfits rw Hall) as [Nn Hi0]. destruct (get_ops_ok (rw_nodes rw) c0 ND0 Hi0) as (os & Eg & F).
        unfold pre. rewrite Eg. apply (step_weight (w i) c c1 rw os ND St).
        assert (G : forall ns os, Forall2 (fun n o => In (n, o) c0) ns os -> incl ns (rw_nodes rw) ->
            Forall2 (fun n o => In (n, o) c) ns os).
        { induction 1 as [|n o ns os' Hno _ IHf]; intro Hi; constructor.
          - apply U; [assumption|]. simpl. intro Hx. apply Ho'. exists n. split; [apply Hi; left; reflexivity|assumption].
          - apply IHf. intros x Hx. apply Hi. right; assumption. }
        apply G; [assumption|apply incl_refl]. }
      assert (Hpre : forall i, 0 <= pre i rw) by (intro i; apply pre_le; auto).
      assert (Hrest : forall i, 0 <= zsum (map (fun e => post i (fst e)) rest)).
      { intro i. apply zsum_nonneg. intros x Hx. apply in_map_iff in Hx. destruct Hx as (? & <- & _). apply w_nonneg. }
      assert (Hdn : forall i, (i < N)%nat -> nth i (delta_add delta d) 0 = weigh (w i) (ops c1) - weigh (w i) (ops c0)).
      { intros i Hi. destruct Hg as [Lg Tg]. rewrite delta_add_nth; [rewrite Hd, Tg, W1 by assumption; lia|congruence|congruence|].
        rewrite Hd, Tg by assumption. specialize (HB i Hi). cbn [map zsum fst] in HB. specialize (Hrest i). specialize (Hpre i).
        assert (weigh (w i) (ops c0) < m63).
        { specialize (Hbound i Hi). pose proof (post_le rw i Hall). specialize (Pn i). lia. }
        pose proof (w_nonneg i (ops c)). pose proof (w_nonneg i (ops c0)). pose proof (w_nonneg i (ops c1)). specialize (W1 i). specialize (Pn i). lia. }
      destruct Hg as [Lg Tg].
      destruct (IH (inval rw ++ changed) (delta_add delta d) ((count + 1) mod 65536) c1 ND1 U1 (fun r d h => Hr r d (or_intror h)) HSr)
        as (c' & ap & d' & E & Hs & N' & Hin & Hdj & Hcc & Hso & Hm & Hf & Ld' & Hd' & Hz); auto.
      { unfold delta_add. rewrite zip_length; congruence. }
      { intros i Hi. specialize (HB i Hi). cbn [map zsum fst] in HB. rewrite W1. specialize (Hpre i). lia. }
      { apply Z.mod_pos_bound. reflexivity. }
      exists c', ((rw, d) :: ap), d'.
      split. { rewrite E. do 2 f_equal. rewrite Zplus_mod_idemp_l. f_equal. cbn [length]. lia. }
      split; [cbn [map fst]; econstructor; eauto|]. split; [assumption|].
      split; [intros e [<-|He]; [left; reflexivity|right; auto]|].
      split.
      { cbn [map pairwise_disjoint fst]. split; [|exact Hdj]. intros b Hb (n & H1 & H2). apply in_map_iff in Hb.
        destruct Hb as (r & <- & He). apply (Hcc r He). exists n. split; [assumption|]. apply in_app_iff; auto. }
      split.
      { intros e [<-|He]; [assumption|]. intros (n & H1 & H2). apply (Hcc e He). exists n. split; [assumption|apply in_app_iff; auto]. }
      split.
      { constructor; [assumption|]. rewrite Forall_forall in *. intros x Hx. apply HSh. auto. }
      split.
      { intros e [<-|He]; [left; left; reflexivity|]. destruct (Hm e He) as [H|[H|(a & Ha & Hb & Hl)]].
        - left; right; assumption.
        - destruct H as (n & H1 & H2). apply in_app_iff in H2. destruct H2 as [H2|H2].
          + right; right. exists (rw, d). split; [left; reflexivity|]. split; [exists n; auto|]. rewrite Forall_forall in HSh. apply HSh. assumption.
          + right; left. exists n; auto.
        - right; right. exists a. split; [right; assumption|auto]. }
      split; [reflexivity|]. split; [assumption|]. split; [assumption|].
      intros i Hi. rewrite Hz, W1 by assumption. cbn [map zsum snd]. rewrite Tg by assumption. lia.
Qed.
End Bound.
End Exhaustive.
End Strat.
