(** The modified region is well formed, and what its wires carry. *)
From Coq Require Import List Arith Bool Lia Permutation.
From Verif Require Import OpsModel ResolveModel ResolveSpec ResolveWire ResolvePorts ResolveProofs ResolveMain DfgModel DfgSpec DfgProofs DfgProofs2.
Import ListNotations.
Local Notation S := Datatypes.S.

(** ** Orders *)

Lemma before_in : forall l a b, before l a b -> In a l /\ In b l.
Proof.
  intros l a b (x & y & z & ->). split; apply in_or_app; right; simpl; auto.
  right. apply in_or_app. simpl. auto.
Qed.
Lemma before_rev : forall l a b, before l a b -> before (rev l) b a.
Proof.
  intros l a b (x & y & z & ->). exists (rev z), (rev y), (rev x).
  rewrite rev_app_distr. simpl. rewrite rev_app_distr. simpl. rewrite <- !app_assoc. simpl. auto.
Qed.
Lemma before_filter : forall f l a b, before l a b -> f a = true -> f b = true -> before (filter f l) a b.
Proof.
  intros f l a b (x & y & z & ->) A B. exists (filter f x), (filter f y), (filter f z).
  rewrite filter_app. simpl. rewrite A, filter_app. simpl. rewrite B. auto.
Qed.
Lemma before_cons : forall l c a b, before l a b -> before (c :: l) a b.
Proof. intros l c a b (x & y & z & ->). exists (c :: x), y, z. auto. Qed.
Lemma before_head : forall l a b, In b l -> before (a :: l) a b.
Proof. intros l a b J. apply in_split in J. destruct J as (y & z & ->). exists [], y, z. auto. Qed.
Lemma before_cons_inv : forall l c a b, before (c :: l) a b -> before l a b \/ (a = c /\ In b l).
Proof.
  intros l c a b ([|h x] & y & z & E); simpl in E; injection E as -> E.
  - right. split; auto. subst. apply in_or_app. simpl; auto.
  - left. exists x, y, z. auto.
Qed.
Lemma before_unfilter : forall f l a b, before (filter f l) a b -> before l a b.
Proof.
  induction l as [|c l IH]; intros a b B; simpl in B.
  - destruct B as ([|] & y & z & E); discriminate.
  - destruct (f c).
    + apply before_cons_inv in B. destruct B as [B|[-> J]]; [apply before_cons; auto|].
      apply before_head. apply filter_In in J. tauto.
    + apply before_cons; auto.
Qed.
Lemma before_app_r : forall l m a b, before m a b -> before (l ++ m) a b.
Proof. intros l m a b (x & y & z & ->). exists (l ++ x), y, z. rewrite <- app_assoc. auto. Qed.
Lemma before_app_l : forall l m a b, before l a b -> before (l ++ m) a b.
Proof.
  intros l m a b (x & y & z & ->). exists x, y, (z ++ m).
  rewrite <- app_assoc. simpl. rewrite <- app_assoc. auto.
Qed.
Lemma before_app : forall l m a b, In a l -> In b m -> before (l ++ m) a b.
Proof.
  intros l m a b A B. apply in_split in A. destruct A as (x & y & ->).
  apply in_split in B. destruct B as (y' & z & ->). exists x, (y ++ y'), z.
  rewrite <- !app_assoc. simpl. rewrite <- ?app_assoc. auto.
Qed.

(** ** Links *)

Lemma links_in : forall n l a s t, In (s, t) (links n a l) ->
  snd s = snd t /\ snd t < n /\
  (fst s = a \/ exists k, In k l /\ fst s = Nd k) /\
  (fst t = Outp \/ exists k, In k l /\ fst t = Nd k).
Proof.
  induction l as [|b l IH]; intros a s t J; simpl in J.
  - apply in_map_iff in J. destruct J as (i & E & J). injection E as <- <-. apply in_seq in J.
    simpl. repeat split; auto; lia.
  - apply in_app_or in J. destruct J as [J|J].
    + apply in_map_iff in J. destruct J as (i & E & J). injection E as <- <-. apply in_seq in J.
      simpl. repeat split; auto; try lia. right. exists b. auto.
    + destruct (IH _ _ _ J) as (A & B & C & D). repeat split; auto.
      * right. destruct C as [C|(k & K & C)]; [exists b|exists k]; simpl; auto.
      * destruct D as [D|(k & K & D)]; [auto|]. right. exists k. simpl. auto.
Qed.

Lemma links_before : forall n l a x i y j, In ((Nd x, i), (Nd y, j)) (links n a l) ->
  before l x y \/ (a = Nd x /\ In y l).
Proof.
  induction l as [|b l IH]; intros a x i y j J; simpl in J.
  - apply in_map_iff in J. destruct J as (k & E & J). discriminate.
  - apply in_app_or in J. destruct J as [J|J].
    + apply in_map_iff in J. destruct J as (k & E & J). injection E as -> <- <- <-. right. simpl. auto.
    + destruct (IH _ _ _ _ _ J) as [B|[E B]]; left; [apply before_cons; auto|].
      injection E as ->. apply before_head; auto.
Qed.

Lemma links_targets : forall n l a, NoDup l -> NoDup (map snd (links n a l)).
Proof.
  induction l as [|b l IH]; intros a N; simpl.
  - rewrite map_map. simpl. apply NoDup_map_in; [|apply seq_NoDup]. intros x y _ _ H. congruence.
  - inversion N; subst. rewrite map_app, map_map. simpl. apply NoDup_app_iff'. repeat split; auto.
    + apply NoDup_map_in; [|apply seq_NoDup]. intros x y _ _ H. congruence.
    + intros t J J'. apply in_map_iff in J. destruct J as (i & <- & _).
      apply in_map_iff in J'. destruct J' as ([s t] & E & J'). simpl in E. subst t.
      apply links_in in J'. simpl in J'. destruct J' as (_ & _ & _ & [J'|(k & K & J')]); [discriminate|].
      injection J' as ->. auto.
Qed.

Lemma links_sources : forall n l a, NoDup l -> (forall k, In k l -> a <> Nd k) ->
  NoDup (map fst (links n a l)).
Proof.
  induction l as [|b l IH]; intros a N D; simpl.
  - rewrite map_map. simpl. apply NoDup_map_in; [|apply seq_NoDup]. intros x y _ _ H. congruence.
  - inversion N; subst. rewrite map_app, map_map. simpl. apply NoDup_app_iff'. repeat split; auto.
    + apply NoDup_map_in; [|apply seq_NoDup]. intros x y _ _ H. congruence.
    + apply IH; auto. intros k K E. injection E as ->. auto.
    + intros t J J'. apply in_map_iff in J. destruct J as (i & <- & _).
      apply in_map_iff in J'. destruct J' as ([s t] & E & J'). simpl in E. subst s.
      apply links_in in J'. simpl in J'. destruct J' as (_ & _ & [J'|(k & K & J')] & _).
      * apply (D b); [left; auto|auto].
      * apply (D k); [right; auto|auto].
Qed.

Lemma links_fed : forall n l a t i, i < n -> (t = Outp \/ exists k, In k l /\ t = Nd k) ->
  exists s, In (s, (t, i)) (links n a l).
Proof.
  induction l as [|b l IH]; intros a t i L [->|(k & K & ->)]; simpl.
  - exists (a, i). apply in_map_iff. exists i. split; auto. apply in_seq; lia.
  - destruct K.
  - destruct (IH (Nd b) Outp i L (or_introl eq_refl)) as (s & J). exists s. apply in_or_app. auto.
  - destruct K as [->|K].
    + exists (a, i). apply in_or_app. left. apply in_map_iff. exists i. split; auto. apply in_seq; lia.
    + destruct (IH (Nd b) (Nd k) i L) as (s & J); [right; eauto|]. exists s. apply in_or_app. auto.
Qed.

Lemma links_used : forall n l a s i, i < n -> (s = a \/ exists k, In k l /\ s = Nd k) ->
  exists t, In ((s, i), t) (links n a l).
Proof.
  induction l as [|b l IH]; intros a s i L H; simpl.
  - destruct H as [->|(k & [] & _)]. exists (Outp, i). apply in_map_iff. exists i. split; auto. apply in_seq; lia.
  - destruct H as [->|(k & [->|K] & ->)].
    + exists (Nd b, i). apply in_or_app. left. apply in_map_iff. exists i. split; auto. apply in_seq; lia.
    + destruct (IH (Nd k) (Nd k) i L (or_introl eq_refl)) as (t & J). exists t. apply in_or_app. auto.
    + destruct (IH (Nd b) (Nd k) i L) as (t & J); [right; eauto|]. exists t. apply in_or_app. auto.
Qed.

(** ** Relating lists *)

Lemma Forall2_NoDup : forall (A B C : Type) (R : A -> B -> Prop) (f : B -> C) l l',
  Forall2 R l l' -> NoDup l ->
  (forall x y a b, In x l -> In y l -> R x a -> R y b -> f a = f b -> x = y) -> NoDup (map f l').
Proof.
  intros A B C R f l l' F. induction F as [|x a l l' Rx F IH]; intros N H; simpl; constructor; inversion N; subst.
  - intro J. apply in_map_iff in J. destruct J as (b & E & J).
    assert (exists y, In y l /\ R y b) as (y & Iy & Ry).
    { clear - F J. induction F; [destruct J|]. destruct J as [->|J]; [exists x; simpl; auto|].
      destruct (IHF J) as (y' & I1 & R1). exists y'. simpl; auto. }
    assert (x = y) by (apply (H x y a b); simpl; auto). subst. auto.
  - apply IH; auto. intros. apply (H x0 y a0 b); simpl; auto.
Qed.
Lemma Forall2_in_r : forall (A B : Type) (R : A -> B -> Prop) l l' b, Forall2 R l l' -> In b l' ->
  exists a, In a l /\ R a b.
Proof.
  intros A B R l l' b F. induction F; intro J; [destruct J|].
  destruct J as [->|J]; [exists x; simpl; auto|]. destruct (IHF J) as (a & I1 & R1). exists a. simpl; auto.
Qed.
Lemma Forall2_in_l : forall (A B : Type) (R : A -> B -> Prop) l l' a, Forall2 R l l' -> In a l ->
  exists b, In b l' /\ R a b.
Proof.
  intros A B R l l' b F. induction F; intro J; [destruct J|].
  destruct J as [->|J]; [exists y; simpl; auto|]. destruct (IHF J) as (a & I1 & R1). exists a. simpl; auto.
Qed.

Lemma NoDup_of_map : forall (A B : Type) (f : A -> B) l, NoDup (map f l) -> NoDup l.
Proof. intros. apply NoDup_map_inv in H. auto. Qed.

Lemma NoDup_map_eq : forall (A B : Type) (f : A -> B) l x y, NoDup (map f l) -> In x l -> In y l -> f x = f y -> x = y.
Proof.
  induction l as [|a l IH]; intros x y N Ix Iy E; [destruct Ix|].
  simpl in N. inversion N; subst. destruct Ix as [->|Ix], Iy as [->|Iy]; auto.
  - exfalso. apply H1. rewrite E. apply in_map; auto.
  - exfalso. apply H1. rewrite <- E. apply in_map; auto.
Qed.

Section Region.
Variables (d : bool) (n : nat) (g : graph) (order : list nat).
Hypothesis W : wf g.
Hypothesis Fl : flat g.
Hypothesis Rv : d = true -> reversible_rows (g_ins g) (g_outs g).
Hypothesis Tp : topological g order.

Let wl := if d then rev order else order.
Notation corr := (corr d n g).
Notation conn := (conn d n g).

Definition new_order : list nat :=
  if d then filter (fun k => negb (is_gate (op_at (g_nodes g) k))) order ++ rev (gates_of (g_nodes g) order)
  else order.

Lemma wl_perm : Permutation wl (map fst (g_nodes g)).
Proof.
  destruct Tp as [P _]. unfold wl. destruct d; auto. rewrite <- Permutation_rev. auto.
Qed.
Lemma order_nodup : NoDup order.
Proof. destruct Tp as [P _]. apply (Permutation_NoDup (Permutation_sym P)), (wf_nodes g W). Qed.
Lemma wl_nodup : NoDup wl.
Proof. apply (Permutation_NoDup (Permutation_sym wl_perm)), (wf_nodes g W). Qed.

Lemma source_fun : forall s b b', source g s b -> source g s b' -> b = b'.
Proof.
  intros [[| |k] i] b b'; unfold source; simpl; intros A B; try tauto; try congruence.
  destruct A as (o & No & A), B as (o' & No' & B). rewrite (nodes_fun g W _ _ _ No' No) in B. congruence.
Qed.

Lemma connect_all_ok : forall M, NoDup (map fst M) -> (forall w w', In (w, w') M <-> corr w w') ->
  forall edges, (forall e, In e edges -> In e (g_edges g)) ->
  exists E, connect_all M edges = Some E /\ Forall2 conn edges E.
Proof.
  intros M NM HM. induction edges as [|[[a i] [b j]] edges IH]; intro Sub.
  - exists []. split; auto.
  - destruct IH as (E & CE & FE); [intros; apply Sub; simpl; auto|].
    destruct (wf_typed g W (a, i) (b, j)) as (q & Hs & Ht); [apply Sub; simpl; auto|].
    pose proof (corr_source d n g Fl Rv _ _ Hs) as Cs. pose proof (corr_target d n g Fl Rv _ _ Ht) as Ct.
    simpl. rewrite CE. destruct (d && q) eqn:Q.
    + destruct Cs as ([x t'] & Cs & _), Ct as ([y s'] & Ct & _).
      pose proof (proj2 (map_get_in M (I (b, j)) _ NM) (proj2 (HM _ _) Ct)) as G1.
      pose proof (proj2 (map_get_in M (O (a, i)) _ NM) (proj2 (HM _ _) Cs)) as G2.
      change (I (b, j)) with (b, (Incoming, j)) in G1. change (O (a, i)) with (a, (Outgoing, i)) in G2.
      rewrite G1, G2.
      unfold connect_wires. simpl. eexists. split; [reflexivity|]. constructor; auto.
      exists q. rewrite Q. simpl. auto.
    + destruct Cs as ([x t'] & Cs & _), Ct as ([y s'] & Ct & _).
      pose proof (proj2 (map_get_in M (I (b, j)) _ NM) (proj2 (HM _ _) Ct)) as G1.
      pose proof (proj2 (map_get_in M (O (a, i)) _ NM) (proj2 (HM _ _) Cs)) as G2.
      change (I (b, j)) with (b, (Incoming, j)) in G1. change (O (a, i)) with (a, (Outgoing, i)) in G2.
      rewrite G1, G2.
      unfold connect_wires. simpl. eexists. split; [reflexivity|]. constructor; auto.
      exists q. rewrite Q. simpl. auto.
Qed.

Lemma region_ok : exists g', modify_region d n order g = Some g' /\
  g_ins g' = repeat true n ++ g_ins g /\ g_outs g' = repeat true n ++ g_outs g /\
  g_nodes g' = map (fun k => (k, new_op d n (op_at (g_nodes g) k))) wl /\
  exists E, g_edges g' = links n Inp (gates_of (g_nodes g) wl) ++ E /\ Forall2 conn (g_edges g) E.
Proof.
  destruct (map_corr d n g W Fl Rv wl wl_perm) as (e & We & Ne & De & NM & HM).
  unfold modify_region. rewrite We, (insert_all_ok _ []) by (auto; intros w _ []).
  rewrite app_nil_l. fold wl.
  destruct (visit_all_ok d n (g_nodes g) (wf_nodes g W) (fun k o J => Fl k o J) wl
              {| s_map := entries Outp Inp e; s_controls := map (fun i => (Inp, i)) (seq 0 n);
                 s_nodes := []; s_edges := [] |} Inp wl_nodup)
    as (s' & V & Em & En & Lc & Ee); auto.
  { intros k K. apply (Permutation_in _ wl_perm). auto. }
  rewrite V. simpl in Em. rewrite Em.
  destruct (connect_all_ok _ NM HM (g_edges g) (fun e J => J)) as (E & CE & FE). rewrite CE.
  eexists. split; [reflexivity|]. simpl. split; auto. split; auto. split.
  - rewrite En. auto.
  - exists E. split; auto. rewrite app_assoc. f_equal. rewrite Lc. simpl in Ee. auto.
Qed.

Variable g' : graph.
Variable E : list ((node * nat) * (node * nat)).
Hypothesis Gi : g_ins g' = repeat true n ++ g_ins g.
Hypothesis Go : g_outs g' = repeat true n ++ g_outs g.
Hypothesis Gn : g_nodes g' = map (fun k => (k, new_op d n (op_at (g_nodes g) k))) wl.
Hypothesis Ge : g_edges g' = links n Inp (gates_of (g_nodes g) wl) ++ E.
Hypothesis FE : Forall2 conn (g_edges g) E.

Lemma new_nodes : forall k o', In (k, o') (g_nodes g') <-> exists o, In (k, o) (g_nodes g) /\ o' = new_op d n o.
Proof.
  intros k o'. rewrite Gn, in_map_iff. split.
  - intros (x & Ex & J). injection Ex as -> <-.
    apply (Permutation_in _ wl_perm) in J. apply in_map_iff in J. destruct J as ([k' o] & Ek & J).
    simpl in Ek. subst k'. exists o. rewrite (op_at_in _ _ _ (wf_nodes g W) J). auto.
  - intros (o & J & ->). exists k. rewrite (op_at_in _ _ _ (wf_nodes g W) J). split; auto.
    apply (Permutation_in _ (Permutation_sym wl_perm)). apply (in_map fst) in J. auto.
Qed.

Lemma target_new : forall t b, target g' t b <-> new_target d n g t b.
Proof.
  intros [[| |k] i] b; unfold target, new_target; simpl; try tauto.
  - rewrite Go. tauto.
  - split.
    + intros (o' & J & Q). apply new_nodes in J. destruct J as (o & J & ->). eauto.
    + intros (o & J & Q). exists (new_op d n o). split; auto. apply new_nodes. eauto.
Qed.
Lemma source_new : forall t b, source g' t b <-> new_source d n g t b.
Proof.
  intros [[| |k] i] b; unfold source, new_source; simpl; try tauto.
  - rewrite Gi. tauto.
  - split.
    + intros (o' & J & Q). apply new_nodes in J. destruct J as (o & J & ->). eauto.
    + intros (o & J & Q). exists (new_op d n o). split; auto. apply new_nodes. eauto.
Qed.

Lemma gates_in : forall l k, In k (gates_of (g_nodes g) l) <-> In k l /\ is_gate (op_at (g_nodes g) k) = true.
Proof. intros. unfold gates_of. apply filter_In. Qed.

Lemma gate_at : forall k, In k (map fst (g_nodes g)) -> is_gate (op_at (g_nodes g) k) = true ->
  exists gg, In (k, Gate gg false 0) (g_nodes g).
Proof.
  intros k J Q. apply in_map_iff in J. destruct J as ([k' o] & Ek & J). simpl in Ek. subst k'.
  rewrite (op_at_in _ _ _ (wf_nodes g W) J) in Q. destruct o as [gg d' n'|]; [|discriminate].
  destruct (Fl _ _ J) as (-> & -> & _). eauto.
Qed.

Lemma wl_gate : forall k, In k (gates_of (g_nodes g) wl) <-> exists gg, In (k, Gate gg false 0) (g_nodes g).
Proof.
  intro k. rewrite gates_in. split.
  - intros [J Q]. apply gate_at; auto. apply (Permutation_in _ wl_perm). auto.
  - intros (gg & J). split.
    + apply (Permutation_in _ (Permutation_sym wl_perm)). apply (in_map fst) in J. auto.
    + rewrite (op_at_in _ _ _ (wf_nodes g W) J). auto.
Qed.

Lemma links_ctl : forall s t, In (s, t) (links n Inp (gates_of (g_nodes g) wl)) ->
  ctl_source n g s /\ ctl_target n g t.
Proof.
  intros s t J. apply links_in in J. destruct J as (A & B & C & D). split; (split; [lia|]).
  - destruct C as [->|(k & K & ->)]; auto. apply wl_gate in K. destruct K as (gg & K). eauto.
  - destruct D as [->|(k & K & ->)]; auto. apply wl_gate in K. destruct K as (gg & K). eauto.
Qed.

Lemma ctl_source_true : forall s, ctl_source n g s -> new_source d n g s true.
Proof.
  intros [[| |k] i] [L H]; simpl in L, H; unfold new_source; simpl.
  - rewrite nth_repeat_app, (proj2 (Nat.ltb_lt _ _)); auto.
  - auto.
  - destruct H as (gg & d' & n' & J). exists (Gate gg d' n'). split; auto. simpl.
    rewrite nth_repeat', (proj2 (Nat.ltb_lt _ _)); auto. lia.
Qed.
Lemma ctl_target_true : forall s, ctl_target n g s -> new_target d n g s true.
Proof.
  intros [[| |k] i] [L H]; simpl in L, H; unfold new_target; simpl.
  - auto.
  - rewrite nth_repeat_app, (proj2 (Nat.ltb_lt _ _)); auto.
  - destruct H as (gg & d' & n' & J). exists (Gate gg d' n'). split; auto. simpl.
    rewrite nth_repeat_app, (proj2 (Nat.ltb_lt _ _)); auto. lia.
Qed.

Lemma conn_types : forall e e', conn e e' ->
  exists b, new_source d n g (fst e') b /\ new_target d n g (snd e') b.
Proof.
  intros e e' (b & Hs & Ht & C). exists b.
  pose proof (corr_source d n g Fl Rv _ _ Hs) as Cs. pose proof (corr_target d n g Fl Rv _ _ Ht) as Ct.
  destruct (d && b).
  - destruct C as [C1 C2], Cs as (t' & Cs & Nt), Ct as (s' & Ct & Ns).
    pose proof (I_inj _ _ (corr_fun d n g W _ _ _ C2 Cs)) as A1. pose proof (O_inj _ _ (corr_fun d n g W _ _ _ C1 Ct)) as A2.
    rewrite A1, A2. auto.
  - destruct C as [C1 C2], Cs as (t' & Cs & Nt), Ct as (s' & Ct & Ns).
    pose proof (O_inj _ _ (corr_fun d n g W _ _ _ C1 Cs)) as A1. pose proof (I_inj _ _ (corr_fun d n g W _ _ _ C2 Ct)) as A2.
    rewrite A1, A2. auto.
Qed.

Lemma conn_target_inj : forall x y a b, In x (g_edges g) -> In y (g_edges g) ->
  conn x a -> conn y b -> snd a = snd b -> x = y.
Proof.
  intros x y a b Ix Iy (p & Sx & Tx & Cx) (q & Sy & Ty & Cy) Eq.
  assert (By : forall w1 w2, corr w1 (I (snd a)) -> corr w2 (I (snd b)) -> w1 = w2).
  { intros w1 w2 A B. rewrite Eq in A. apply (corr_inj d n g W Rv _ _ _ A B). }
  destruct (d && p) eqn:P, (d && q) eqn:Q; destruct Cx as [Cx1 Cx2], Cy as [Cy1 Cy2].
  - pose proof (O_inj _ _ (By _ _ Cx2 Cy2)) as Es.
    assert (p = true) by (destruct d, p; auto; discriminate). subst p.
    destruct x as [sx tx], y as [sy ty]. simpl in *. subst sy. f_equal.
    apply (wf_linear g W sx); auto.
  - exfalso. apply (O_I (fst x) (snd y)). apply (By _ _ Cx2 Cy2).
  - exfalso. apply (O_I (fst y) (snd x)). symmetry. apply (By _ _ Cx2 Cy2).
  - pose proof (I_inj _ _ (By _ _ Cx2 Cy2)) as Et.
    apply (NoDup_map_eq _ _ snd (g_edges g)); auto. apply (wf_once g W).
Qed.

Lemma conn_source_inj : forall x y a b, In x (g_edges g) -> In y (g_edges g) ->
  conn x a -> conn y b -> new_source d n g (fst a) true -> fst a = fst b -> x = y.
Proof.
  intros x y a b Ix Iy (p & Sx & Tx & Cx) (q & Sy & Ty & Cy) Na Eq.
  assert (By : forall w1 w2, corr w1 (O (fst a)) -> corr w2 (O (fst b)) -> w1 = w2).
  { intros w1 w2 A B. rewrite Eq in A. apply (corr_inj d n g W Rv _ _ _ A B). }
  destruct (d && p) eqn:P, (d && q) eqn:Q; destruct Cx as [Cx1 Cx2], Cy as [Cy1 Cy2].
  - pose proof (I_inj _ _ (By _ _ Cx1 Cy1)) as Et.
    apply (NoDup_map_eq _ _ snd (g_edges g)); auto. apply (wf_once g W).
  - exfalso. apply (O_I (fst y) (snd x)). symmetry. apply (By _ _ Cx1 Cy1).
  - exfalso. apply (O_I (fst x) (snd y)). apply (By _ _ Cx1 Cy1).
  - pose proof (O_inj _ _ (By _ _ Cx1 Cy1)) as Es.
    (* the source is quantum *)
    assert (p = true).
    { pose proof (corr_source d n g Fl Rv _ _ Sx) as Cs. rewrite P in Cs. destruct Cs as (s' & Cs & Ns).
      pose proof (O_inj _ _ (corr_fun d n g W _ _ _ Cx1 Cs)) as Q1. rewrite <- Q1 in Ns.
      clear - Na Ns W. destruct (fst a) as [[| |k] i]; unfold new_source in *; simpl in *; try tauto.
      - congruence.
      - destruct Na as (o & No & Na), Ns as (o' & No' & Ns). rewrite (nodes_fun g W _ _ _ No' No) in Ns. congruence. }
    subst p. destruct x as [sx tx], y as [sy ty]. simpl in *. subst sy. f_equal.
    apply (wf_linear g W sx); auto.
Qed.

Lemma conn_ctl : forall x a, conn x a -> ~ ctl_source n g (fst a) /\ ~ ctl_target n g (snd a).
Proof.
  intros x a (p & Sx & Tx & Cx). destruct (d && p); destruct Cx as [C1 C2]; split.
  - destruct (corr_not_ctl d n g W _ _ C1) as [Z1 Z2]; auto.
  - destruct (corr_not_ctl d n g W _ _ C2) as [Z1 Z2]; auto.
  - destruct (corr_not_ctl d n g W _ _ C1) as [Z1 Z2]; auto.
  - destruct (corr_not_ctl d n g W _ _ C2) as [Z1 Z2]; auto.
Qed.

Lemma new_edge : forall s t, In (s, t) (g_edges g') <->
  In (s, t) (links n Inp (gates_of (g_nodes g) wl)) \/ exists e, In e (g_edges g) /\ conn e (s, t).
Proof.
  intros s t. rewrite Ge, in_app_iff. split; (intros [J|J]; [left; auto|right]).
  - apply (Forall2_in_r _ _ _ _ _ _ FE J).
  - destruct J as (e & Ie & C). destruct (Forall2_in_l _ _ _ _ _ _ FE Ie) as ([s' t'] & Ie' & C').
    assert ((s, t) = (s', t')); [|congruence].
    destruct C as (b & Hs & Ht & C), C' as (b' & Hs' & Ht' & C').
    rewrite (source_fun _ _ _ Hs' Hs) in C'.
    destruct (d && b); destruct C as [C1 C2], C' as [C1' C2'].
    + pose proof (O_inj _ _ (corr_fun d n g W _ _ _ C1 C1')) as Q1.
      pose proof (I_inj _ _ (corr_fun d n g W _ _ _ C2 C2')) as Q2. simpl in Q1, Q2. congruence.
    + pose proof (O_inj _ _ (corr_fun d n g W _ _ _ C1 C1')) as Q1.
      pose proof (I_inj _ _ (corr_fun d n g W _ _ _ C2 C2')) as Q2. simpl in Q1, Q2. congruence.
Qed.

Lemma gates_nodup : NoDup (gates_of (g_nodes g) wl).
Proof. apply NoDup_filter. apply wl_nodup. Qed.

Lemma new_wf : wf g'.
Proof.
  constructor.
  - rewrite Gn, map_map. simpl. rewrite map_id. apply wl_nodup.
  - intros s t J. apply new_edge in J. destruct J as [J|(e & Ie & C)].
    + apply links_ctl in J. destruct J as [A B]. exists true.
      rewrite source_new, target_new. split; [apply ctl_source_true|apply ctl_target_true]; auto.
    + apply conn_types in C. destruct C as (b & A & B). exists b. rewrite source_new, target_new. auto.
  - rewrite Ge, map_app. apply NoDup_app_iff'. repeat split.
    + apply links_targets. apply gates_nodup.
    + apply (Forall2_NoDup _ _ _ _ _ _ _ FE).
      * apply (NoDup_of_map _ _ snd). apply (wf_once g W).
      * apply conn_target_inj.
    + intros t J J'. apply in_map_iff in J. destruct J as ([s t1] & E1 & J). simpl in E1. subst t1.
      apply in_map_iff in J'. destruct J' as (e' & E1 & J').
      destruct (Forall2_in_r _ _ _ _ _ _ FE J') as (e & Ie & C).
      apply (proj2 (conn_ctl _ _ C)). rewrite E1. apply links_ctl in J. tauto.
  - intros t b T. apply target_new in T. destruct (target_onto d n g Fl Rv _ _ T) as [[C _]|O'].
    + destruct t as [x i]. destruct C as [L C]. simpl in L, C.
      destruct (links_fed n (gates_of (g_nodes g) wl) Inp x i L) as (s & J).
      { destruct x as [| |k]; [destruct C|auto|]. right. exists k. split; auto. apply wl_gate.
        destruct C as (gg & d' & n' & C). destruct (Fl _ _ C) as (-> & -> & _). eauto. }
      exists s. apply new_edge. auto.
    + destruct (d && b) eqn:Q.
      * destruct O' as (s & Hs & C). assert (b = true) by (destruct d, b; auto; discriminate). subst b.
        destruct (wf_used g W s Hs) as (t0 & J). destruct (Forall2_in_l _ _ _ _ _ _ FE J) as ([s' t'] & J' & C').
        exists s'. apply new_edge. right. exists (s, t0). split; auto.
        destruct C' as (b & Hs' & Ht' & C'). exists b. split; auto. split; auto.
        rewrite (source_fun _ _ _ Hs' Hs) in C' |- *. rewrite Q in C' |- *. simpl in C' |- *. tauto.
      * destruct O' as (t0 & Ht & C). destruct (wf_fed g W t0 b Ht) as (s & J).
        destruct (Forall2_in_l _ _ _ _ _ _ FE J) as ([s' t'] & J' & C').
        exists s'. apply new_edge. right. exists (s, t0). split; auto.
        destruct C' as (b' & Hs' & Ht' & C'). exists b'. split; auto. split; auto.
        assert (b' = b).
        { clear - Ht Ht' W. simpl in Ht'. destruct t0 as [[| |k] i]; unfold target in *; simpl in *; try tauto; try congruence.
          destruct Ht as (o & No & A), Ht' as (o' & No' & B). rewrite (nodes_fun g W _ _ _ No' No) in B. congruence. }
        subst b'. rewrite Q in C' |- *. simpl in C' |- *. tauto.
  - intros s T. apply source_new in T. destruct (source_onto d n g Fl Rv _ _ T) as [[C _]|O'].
    + destruct s as [x i]. destruct C as [L C]. simpl in L, C.
      destruct (links_used n (gates_of (g_nodes g) wl) Inp x i L) as (t & J).
      { destruct x as [| |k]; [auto|destruct C|]. right. exists k. split; auto. apply wl_gate.
        destruct C as (gg & d' & n' & C). destruct (Fl _ _ C) as (-> & -> & _). eauto. }
      exists t. apply new_edge. auto.
    + destruct (d && true) eqn:Q.
      * destruct O' as (t0 & Ht & C). destruct (wf_fed g W t0 true Ht) as (s0 & J).
        destruct (Forall2_in_l _ _ _ _ _ _ FE J) as ([s' t'] & J' & C').
        exists t'. apply new_edge. right. exists (s0, t0). split; auto.
        destruct C' as (b' & Hs' & Ht' & C'). exists b'. split; auto. split; auto.
        assert (b' = true).
        { clear - Ht Ht' W. simpl in Ht'. destruct t0 as [[| |k] i]; unfold target in *; simpl in *; try tauto; try congruence.
          destruct Ht as (o & No & A), Ht' as (o' & No' & B). rewrite (nodes_fun g W _ _ _ No' No) in B. congruence. }
        subst b'. rewrite Q in C' |- *. simpl in C' |- *. tauto.
      * destruct O' as (s0 & Hs & C).
        destruct (wf_used g W s0 Hs) as (t0 & J). destruct (Forall2_in_l _ _ _ _ _ _ FE J) as ([s' t'] & J' & C').
        exists t'. apply new_edge. right. exists (s0, t0). split; auto.
        destruct C' as (b & Hs' & Ht' & C'). exists b. split; auto. split; auto.
        rewrite (source_fun _ _ _ Hs' Hs) in C' |- *. rewrite Q in C' |- *. simpl in C' |- *. tauto.
  - intros s t t' T J J'. apply new_edge in J. apply new_edge in J'.
    destruct J as [J|(e & Ie & C)], J' as [J'|(e1 & Ie' & C')].
    + assert ((s, t) = (s, t')); [|congruence].
      apply (NoDup_map_eq _ _ fst (links n Inp (gates_of (g_nodes g) wl))); auto.
      apply links_sources; [apply gates_nodup|]. intros; discriminate.
    + exfalso. apply (proj1 (conn_ctl _ _ C')). apply links_ctl in J. tauto.
    + exfalso. apply (proj1 (conn_ctl _ _ C)). apply links_ctl in J'. tauto.
    + apply source_new in T. assert (e = e1) by (apply (conn_source_inj e e1 (s, t) (s, t')); auto). subst e1.
      destruct C as (b & Hs & Ht & C), C' as (b' & Hs' & Ht' & C').
      rewrite (source_fun _ _ _ Hs' Hs) in C'.
      destruct (d && b); destruct C as [C1 C2], C' as [C1' C2'];
        pose proof (I_inj _ _ (corr_fun d n g W _ _ _ C2 C2')); auto.
Qed.

(** ** The new order *)

Lemma corr_node : forall w k p, corr w (Nd k, p) -> fst w = Nd k.
Proof.
  intros [[| |k'] [dd i]] k p C; simpl in C.
  - destruct dd; [destruct C|]. destruct C as (b & _ & C). destruct (d && b); [destruct C as (j & C & _)|]; discriminate.
  - destruct dd; [|destruct C]. destruct C as (b & _ & C). destruct (d && b); [destruct C as (j & C & _)|]; discriminate.
  - destruct C as (o & No & C). destruct o; [destruct dd; destruct C as [_ C]|destruct C as [C _]]; simpl; congruence.
Qed.

Lemma quantum_source_gate : forall k i, source g (Nd k, i) true -> is_gate (op_at (g_nodes g) k) = true.
Proof.
  intros k i (o & No & Q). simpl in No. rewrite (op_at_in _ _ _ (wf_nodes g W) No). destruct o as [|l ins outs]; auto.
  simpl in Q. pose proof (Fl _ _ No true) as F. exfalso.
  assert (true = false); [|discriminate]. apply F. apply in_or_app. right. apply nth_error_In in Q. auto.
Qed.
Lemma quantum_target_gate : forall k i, target g (Nd k, i) true -> is_gate (op_at (g_nodes g) k) = true.
Proof.
  intros k i (o & No & Q). simpl in No. rewrite (op_at_in _ _ _ (wf_nodes g W) No). destruct o as [|l ins outs]; auto.
  simpl in Q. pose proof (Fl _ _ No true) as F. exfalso.
  assert (true = false); [|discriminate]. apply F. apply in_or_app. left. apply nth_error_In in Q. auto.
Qed.
Lemma classical_source_copied : forall k i, source g (Nd k, i) false -> is_gate (op_at (g_nodes g) k) = false.
Proof.
  intros k i (o & No & Q). simpl in No. rewrite (op_at_in _ _ _ (wf_nodes g W) No). destruct o as [gg d' n'|l ins outs]; auto.
  simpl in Q. rewrite nth_repeat' in Q. destruct (_ <? _); discriminate.
Qed.

Lemma filter_rev' : forall (f : nat -> bool) l, filter f (rev l) = rev (filter f l).
Proof.
  induction l as [|a l IH]; simpl; auto. rewrite filter_app, IH. simpl. destruct (f a); simpl; auto.
  rewrite app_nil_r. auto.
Qed.

Lemma filter_partition : forall (f : nat -> bool) l, Permutation (filter (fun k => negb (f k)) l ++ filter f l) l.
Proof.
  induction l as [|a l IH]; simpl; auto. destruct (f a); simpl.
  - apply Permutation_sym, Permutation_cons_app, Permutation_sym. auto.
  - apply perm_skip. auto.
Qed.

Lemma new_topological : topological g' new_order.
Proof.
  destruct Tp as [P B]. split.
  - rewrite Gn, map_map. simpl. rewrite map_id. unfold new_order, wl. destruct d; auto.
    rewrite <- !Permutation_rev. apply filter_partition.
  - intros a i b j J. apply new_edge in J. destruct J as [J|(e & Ie & C)].
    + apply links_before in J. destruct J as [J|[J _]]; [|discriminate].
      unfold new_order, wl in *. destruct d.
      * apply before_app_r. unfold gates_of in *. rewrite filter_rev' in J. auto.
      * apply before_unfilter in J. auto.
    + destruct C as (q & Hs & Ht & C). destruct e as [[x xi] [y yj]].
      simpl fst in *; simpl snd in *.
      destruct (d && q) eqn:Q.
      * destruct C as [C1 C2]. pose proof (corr_node _ _ _ C1) as D1. pose proof (corr_node _ _ _ C2) as D2.
        simpl in D1, D2. subst x y. clear C1 C2.
        destruct d eqn:Ed; [|discriminate]. destruct q; [|discriminate].
        unfold new_order. rewrite Ed. apply before_app_r. apply before_rev.
        apply before_filter; [apply (B _ _ _ _ Ie)| |].
        -- apply (quantum_source_gate _ _ Hs).
        -- apply (quantum_target_gate _ _ Ht).
      * destruct C as [C1 C2]. pose proof (corr_node _ _ _ C1) as D1. pose proof (corr_node _ _ _ C2) as D2.
        simpl in D1, D2. subst x y. clear C1 C2.
        pose proof (B _ _ _ _ Ie) as Bo. unfold new_order. destruct d eqn:Ed; auto.
        destruct q; [discriminate|]. apply classical_source_copied in Hs.
        destruct (is_gate (op_at (g_nodes g) b)) eqn:Gb.
        -- apply before_app.
           ++ apply filter_In. split; [apply (proj1 (before_in _ _ _ Bo))|]. rewrite Hs. auto.
           ++ apply in_rev. rewrite rev_involutive. apply filter_In. split; auto. apply (proj2 (before_in _ _ _ Bo)).
        -- apply before_app_l. apply before_filter; auto; [rewrite Hs|rewrite Gb]; auto.
Qed.

(** ** What the new wires carry *)

Section Values.
Variable V : Type.
Variable cl : nat -> list V -> nat -> V.
Variables (ins outs ins' outs' : list (value V)) (val : node * nat -> value V) (cs : list nat).
Hypothesis Ca : carries cl g ins outs val.
Hypothesis Lc : length cs = n.
Hypothesis Ex : if d then exchanged (g_ins g) (g_outs g) ins outs ins' outs' else ins' = ins /\ outs' = outs.

Definition ctl_val (i : nat) : value V := Qb (nth i cs 0).

Definition new_val (s : node * nat) : value V :=
  match fst s with
  | Inp => if snd s <? n then ctl_val (snd s) else nth (snd s - n) ins' (Qb 0)
  | Outp => Qb 0
  | Nd k => if is_gate (op_at (g_nodes g) k)
            then if snd s <? n then ctl_val (snd s) else val (Nd k, snd s - n)
            else val s
  end.

Lemma arrives_fun : forall t x y, arrives g val t x -> arrives g val t y -> x = y.
Proof.
  intros t x y (s & J & <-) (s' & J' & <-).
  assert ((s, t) = (s', t)) as Q; [|congruence].
  apply (NoDup_map_eq _ _ snd (g_edges g)); auto. apply (wf_once g W).
Qed.

Lemma ins_len : length ins' = length (g_ins g).
Proof.
  destruct (ca_ins _ _ _ _ _ _ Ca) as [L _]. destruct d; [destruct Ex as (A & _); congruence|].
  destruct Ex as [-> _]. auto.
Qed.
Lemma outs_len : length outs' = length (g_outs g).
Proof.
  destruct (ca_outs _ _ _ _ _ _ Ca) as [L _]. destruct d; [destruct Ex as (_ & A & _); congruence|].
  destruct Ex as [_ ->]. auto.
Qed.

Lemma nth_of_error : forall (l : list (value V)) i x, nth_error l i = Some x -> nth i l (Qb 0) = x.
Proof. intros. apply nth_error_nth. auto. Qed.

(** Values of images. *)
Lemma value_kept : forall s s' b, source g s b -> d && b = false -> corr (O s) (O s') -> new_val s' = val s.
Proof.
  intros [[| |k] i] s' b Hs Q C; simpl in C.
  - destruct C as (b' & Nb & C). unfold source in Hs. simpl in Hs. rewrite Hs in Nb. injection Nb as <-.
    rewrite Q in C. assert (s' = (Inp, n + i)) by (destruct s'; unfold O in C; simpl in C; congruence). subst s'.
    unfold new_val. simpl. destruct (Nat.ltb_spec (n + i) n); [lia|].
    replace (n + i - n) with i by lia.
    destruct (ca_ins _ _ _ _ _ _ Ca) as [L Vi].
    assert (exists x, nth_error ins i = Some x) as (x & Nx).
    { destruct (nth_error ins i) eqn:N0; eauto. apply nth_error_None in N0.
      assert (i < length (g_ins g)) by (apply nth_error_Some; congruence). lia. }
    rewrite (Vi _ _ Nx). apply nth_of_error. destruct d.
    + destruct b; [discriminate|]. destruct Ex as (_ & _ & A & _). rewrite (A i Hs). auto.
    + destruct Ex as [-> _]. auto.
  - destruct C.
  - destruct C as (o & No & C). unfold source in Hs. simpl in Hs. destruct Hs as (o' & No' & Hs).
    rewrite (nodes_fun g W _ _ _ No' No) in Hs. destruct o as [gg d' n'|l ins0 outs0].
    + destruct C as [L C]. destruct d; [destruct s'; discriminate|].
      assert (s' = (Nd k, n + i)) by (destruct s'; unfold O in C; simpl in C; congruence). subst s'.
      unfold new_val. simpl. rewrite (op_at_in _ _ _ (wf_nodes g W) No). simpl.
      destruct (Nat.ltb_spec (n + i) n); [lia|]. do 2 f_equal. lia.
    + destruct C as [C _]. assert (s' = (Nd k, i)) by (destruct s'; unfold O in C; simpl in C; congruence). subst s'.
      unfold new_val. simpl. rewrite (op_at_in _ _ _ (wf_nodes g W) No). auto.
Qed.

Lemma value_back : forall t s', target g t true -> d = true -> corr (I t) (O s') -> arrives g val t (new_val s').
Proof.
  intros [[| |k] i] s' Ht Ed C; simpl in C.
  - destruct C.
  - destruct C as (b & Nb & C). unfold target in Ht. simpl in Ht. rewrite Ht in Nb. injection Nb as <-.
    rewrite Ed in C. simpl in C. destruct C as (x & Es & C).
    assert (s' = (Inp, n + x)) by (destruct s'; unfold O in Es; simpl in Es; congruence). subst s'.
    unfold new_val. simpl. destruct (Nat.ltb_spec (n + x) n); [lia|]. replace (n + x - n) with x by lia.
    rewrite Ed in Ex. destruct Ex as (_ & _ & _ & _ & A). destruct (A _ _ (counterpart_sym _ _ _ _ C)) as [A1 _].
    destruct (ca_outs _ _ _ _ _ _ Ca) as [L Vo].
    assert (exists y, nth_error outs i = Some y) as (y & Ny).
    { destruct (nth_error outs i) eqn:N0; eauto. apply nth_error_None in N0.
      assert (i < length (g_outs g)) by (apply nth_error_Some; congruence). lia. }
    rewrite (nth_of_error ins' x y) by congruence. apply Vo. auto.
  - destruct C as (o & No & C). unfold target in Ht. simpl in Ht. destruct Ht as (o' & No' & Ht).
    rewrite (nodes_fun g W _ _ _ No' No) in Ht. destruct o as [gg d' n'|l ins0 outs0].
    + destruct (Fl _ _ No) as (-> & -> & _).
      destruct C as [L C]. simpl in Ht. rewrite nth_repeat_app, nth_repeat' in Ht.
      destruct (Nat.ltb_spec i (gop_qubits gg)) as [Li|Li].
      * rewrite Ed in C. simpl in C.
        assert (s' = (Nd k, n + i)) by (destruct s'; unfold O in C; simpl in C; congruence). subst s'.
        unfold new_val. simpl. rewrite (op_at_in _ _ _ (wf_nodes g W) No). simpl.
        destruct (Nat.ltb_spec (n + i) n); [lia|]. replace (n + i - n) with i by lia.
        apply (ca_gate _ _ _ _ _ _ Ca k gg false 0 No). simpl. auto.
      * destruct (_ <? _) in Ht; discriminate.
    + exfalso. pose proof (Fl _ _ No true) as F. assert (true = false); [|discriminate]. apply F.
      apply in_or_app. left. simpl in Ht. apply nth_error_In in Ht. auto.
Qed.

Lemma target_fun : forall t b b', target g t b -> target g t b' -> b = b'.
Proof.
  intros [[| |k] i] b b'; unfold target; simpl; intros A B; try tauto; try congruence.
  destruct A as (o & No & A), B as (o' & No' & B). rewrite (nodes_fun g W _ _ _ No' No) in B. congruence.
Qed.

Lemma arrive_kept : forall t t' b x, target g t b -> d && b = false -> corr (I t) (I t') ->
  arrives g val t x -> arrives g' new_val t' x.
Proof.
  intros t t' b x Ht Q C (s & J & Vx).
  destruct (Forall2_in_l _ _ _ _ _ _ FE J) as ([s' t1] & J' & (b' & Hs' & Ht' & C')). simpl in Hs', Ht'.
  pose proof (target_fun _ _ _ Ht' Ht) as Eb. subst b'. rewrite Q in C'. destruct C' as [C1 C2]. simpl fst in C1. simpl snd in C2.
  pose proof (I_inj _ _ (corr_fun d n g W _ _ _ C2 C)) as Et. subst t1.
  exists s'. split; [rewrite Ge; apply in_or_app; auto|].
  rewrite (value_kept s s' b); auto.
Qed.

Lemma arrive_back : forall s t', source g s true -> d = true -> corr (O s) (I t') ->
  arrives g' new_val t' (val s).
Proof.
  intros s t' Hs Ed C. destruct (wf_used g W s Hs) as (t & J).
  destruct (Forall2_in_l _ _ _ _ _ _ FE J) as ([s' t1] & J' & (b' & Hs' & Ht' & C')). simpl in Hs', Ht'.
  pose proof (source_fun _ _ _ Hs' Hs) as Eb. subst b'. replace (d && true) with true in C' by (rewrite Ed; auto).
  destruct C' as [C1 C2]. simpl fst in C1, C2. simpl snd in C1, C2.
  pose proof (I_inj _ _ (corr_fun d n g W _ _ _ C2 C)) as Et. subst t1.
  exists s'. split; [rewrite Ge; apply in_or_app; auto|].
  apply (arrives_fun t).
  - apply value_back; auto.
  - exists s. auto.
Qed.

Lemma arrive_ctl : forall t, ctl_target n g t -> arrives g' new_val t (ctl_val (snd t)).
Proof.
  intros [x i] [L C]. simpl in L, C.
  destruct (links_fed n (gates_of (g_nodes g) wl) Inp x i L) as ([y j] & J).
  { destruct x as [| |k]; [destruct C|auto|]. right. exists k. split; auto. apply wl_gate.
    destruct C as (gg & d' & n' & C). destruct (Fl _ _ C) as (-> & -> & _). eauto. }
  exists (y, j). split; [apply new_edge; auto|].
  apply links_in in J. simpl in J. destruct J as (-> & _ & [->|(k & K & ->)] & _).
  - unfold new_val. simpl. rewrite (proj2 (Nat.ltb_lt _ _)); auto.
  - apply gates_in in K. destruct K as [_ K]. unfold new_val. simpl. rewrite K.
    rewrite (proj2 (Nat.ltb_lt _ _)); auto.
Qed.

Lemma nth_error_ex : forall (A : Type) (l : list A) i, i < length l -> exists x, nth_error l i = Some x.
Proof. intros A l i L. destruct (nth_error l i) eqn:Q; eauto. apply nth_error_None in Q. lia. Qed.

Lemma qubit_arrives : forall k gg i, In (k, Gate gg false 0) (g_nodes g) -> i < gop_qubits gg ->
  arrives g' new_val (Nd k, n + i) (val (Nd k, i)).
Proof.
  intros k gg i No L.
  assert (Ht : target g (Nd k, i) true).
  { unfold target. simpl. exists (Gate gg false 0). split; auto. simpl. rewrite nth_repeat_app.
    rewrite (proj2 (Nat.ltb_lt _ _)); auto. }
  assert (Hs : source g (Nd k, i) true).
  { unfold source. simpl. exists (Gate gg false 0). split; auto. simpl. rewrite nth_repeat'.
    rewrite (proj2 (Nat.ltb_lt _ _)); auto. }
  destruct (Bool.bool_dec d true) as [Ed|Ed].
  - apply arrive_back; auto. simpl. exists (Gate gg false 0). rewrite Ed. auto.
  - apply not_true_is_false in Ed.
    apply (arrive_kept (Nd k, i) _ true); auto; [rewrite Ed; auto| |].
    + simpl. exists (Gate gg false 0). split; auto. split; [lia|]. rewrite Ed. auto.
    + apply (ca_gate _ _ _ _ _ _ Ca k gg false 0 No). auto.
Qed.

Lemma new_carries : carries cl g' (map Qb cs ++ ins') (map Qb cs ++ outs') new_val.
Proof.
  constructor.
  - intros s b Hs. apply source_new in Hs. destruct s as [[| |k] i]; unfold new_source in Hs; simpl in Hs.
    + rewrite nth_repeat_app in Hs. unfold new_val. simpl. destruct (Nat.ltb_spec i n) as [L|L].
      * injection Hs as <-. simpl. auto.
      * destruct (source_onto d n g Fl Rv (Inp, i) b) as [[[Lc' _] _]|So].
        { unfold new_source. simpl. rewrite nth_repeat_app. destruct (Nat.ltb_spec i n); [lia|auto]. }
        { simpl in Lc'. lia. }
        destruct (d && b) eqn:Q.
        -- destruct So as (t & Ht & C). assert (Eb : d = true /\ b = true) by (destruct d, b; auto; discriminate).
           destruct Eb as [Ed ->].
           pose proof (value_back _ _ Ht Ed C) as A. unfold new_val in A. simpl in A.
           destruct (Nat.ltb_spec i n); [lia|]. destruct A as (s & J & A). rewrite <- A.
           destruct (wf_typed g W _ _ J) as (b & Hs1 & Ht1). rewrite <- (target_fun _ _ _ Ht1 Ht).
           apply (ca_typed _ _ _ _ _ _ Ca). auto.
        -- destruct So as (s & Hs1 & C). pose proof (value_kept _ _ _ Hs1 Q C) as A.
           unfold new_val in A. simpl in A. destruct (Nat.ltb_spec i n); [lia|]. rewrite A.
           apply (ca_typed _ _ _ _ _ _ Ca). auto.
    + destruct Hs.
    + destruct Hs as (o & No & Hs). unfold new_val. simpl. rewrite (op_at_in _ _ _ (wf_nodes g W) No).
      destruct o as [gg d' n'|l ins0 outs0]; simpl in *.
      * destruct (Fl _ _ No) as (-> & -> & _). rewrite nth_repeat' in Hs.
        destruct (Nat.ltb_spec i (n + gop_qubits gg)); [|discriminate]. injection Hs as <-.
        destruct (Nat.ltb_spec i n); [simpl; auto|]. apply (ca_typed _ _ _ _ _ _ Ca).
        unfold source. simpl. exists (Gate gg false 0). split; auto. simpl. rewrite nth_repeat'.
        rewrite (proj2 (Nat.ltb_lt _ _)); [auto|lia].
      * apply (ca_typed _ _ _ _ _ _ Ca). unfold source. simpl. exists (Copied l ins0 outs0). auto.
  - split; [rewrite Gi, !app_length, map_length, repeat_length, ins_len; lia|].
    intros i x Nx. unfold new_val. simpl. destruct (Nat.ltb_spec i n) as [L|L].
    + rewrite nth_error_app1 in Nx by (rewrite map_length; lia). unfold ctl_val.
      rewrite nth_error_map in Nx. destruct (nth_error cs i) as [q|] eqn:Nq; [|discriminate].
      simpl in Nx. injection Nx as <-. f_equal. apply nth_error_nth. auto.
    + rewrite nth_error_app2 in Nx by (rewrite map_length; lia). rewrite map_length, Lc in Nx.
      apply nth_of_error. auto.
  - split; [rewrite Go, !app_length, map_length, repeat_length, outs_len; lia|].
    intros j x Nx. destruct (Nat.ltb_spec j n) as [L|L].
    + rewrite nth_error_app1 in Nx by (rewrite map_length; lia).
      rewrite nth_error_map in Nx. destruct (nth_error cs j) as [q|] eqn:Nq; [|discriminate].
      simpl in Nx. injection Nx as <-.
      replace (Qb q) with (ctl_val (snd (Outp, j))).
      * apply arrive_ctl. split; simpl; auto.
      * unfold ctl_val. simpl. f_equal. apply nth_error_nth. auto.
    + rewrite nth_error_app2 in Nx by (rewrite map_length; lia). rewrite map_length, Lc in Nx.
      assert (Lj : j - n < length (g_outs g)).
      { rewrite <- outs_len. apply nth_error_Some. congruence. }
      destruct (nth_error_ex _ _ _ Lj) as (b & Nb).
      destruct (target_onto d n g Fl Rv (Outp, j) b) as [[[Lc' _] _]|To].
      { unfold new_target. simpl. rewrite nth_repeat_app. destruct (Nat.ltb_spec j n); [lia|auto]. }
      { simpl in Lc'. lia. }
      destruct (d && b) eqn:Q.
      * destruct To as (s & Hs & C). assert (Eb : d = true /\ b = true) by (destruct d, b; auto; discriminate).
        destruct Eb as [Ed ->].
        pose proof (arrive_back _ _ Hs Ed C) as A. 
        assert (x = val s); [|congruence].
        destruct s as [[| |k] i]; simpl in C.
        -- destruct C as (b & Nb' & C). unfold source in Hs. simpl in Hs. rewrite Hs in Nb'. injection Nb' as <-.
           rewrite Ed in C. simpl in C. destruct C as (y & Ey & C). unfold I in Ey. simpl in Ey.
           assert (y = j - n) by (injection Ey; lia). subst y.
           rewrite Ed in Ex. destruct Ex as (_ & _ & _ & _ & X). destruct (X _ _ C) as [_ X2].
           destruct (ca_ins _ _ _ _ _ _ Ca) as [_ Vi]. symmetry. apply Vi. congruence.
        -- destruct C.
        -- destruct C as (o & No & C). destruct o; destruct C as [C1 C2]; discriminate.
      * destruct To as (t & Ht & C). apply (arrive_kept t _ b); auto.
        destruct t as [[| |k] i]; simpl in C.
        -- destruct C.
        -- destruct C as (b' & Nb' & C). unfold target in Ht. simpl in Ht. rewrite Ht in Nb'. injection Nb' as <-.
           rewrite Q in C. unfold I in C. simpl in C. assert (i = j - n) by (injection C; lia). subst i.
           apply (ca_outs _ _ _ _ _ _ Ca). destruct d.
           ++ destruct b; [discriminate|]. destruct Ex as (_ & _ & _ & X & _). rewrite <- (X _ Ht). auto.
           ++ destruct Ex as [_ X]. congruence.
        -- destruct C as (o & No & C). destruct o; destruct C as [C1 C2]; discriminate.
  - intros k o dd nn J i L. apply new_nodes in J. destruct J as (o0 & No & Eo).
    destruct o0 as [gg d' n'|]; [|discriminate]. simpl in Eo. injection Eo as -> -> ->.
    destruct (Fl _ _ No) as (-> & -> & _).
    unfold new_val at 2. simpl. rewrite (op_at_in _ _ _ (wf_nodes g W) No). simpl.
    destruct (Nat.ltb_spec i n) as [Li|Li].
    + apply (arrive_ctl (Nd k, i)). split; simpl; eauto.
    + replace i with (n + (i - n)) at 1 by lia. apply (qubit_arrives k gg); auto. lia.
  - intros k l ins0 outs0 J. apply new_nodes in J. destruct J as (o0 & No & Eo).
    destruct o0 as [|l' i' u']; [discriminate|]. simpl in Eo. injection Eo as -> -> ->.
    destruct (ca_copied _ _ _ _ _ _ Ca _ _ _ _ No) as (vs & Lv & Vi & Vo). exists vs. split; auto. split.
    + intros i v Nv.
      assert (Li : i < length i') by (rewrite <- Lv; apply nth_error_Some; congruence).
      apply (arrive_kept (Nd k, i) _ false); auto.
      * unfold target. simpl. exists (Copied l' i' u'). split; auto. simpl.
        destruct (nth_error_ex _ _ _ Li) as (b & Nb). rewrite Nb. f_equal. apply (Fl _ _ No).
        apply in_or_app. left. apply nth_error_In in Nb. auto.
      * apply andb_false_r.
      * simpl. exists (Copied l' i' u'). split; auto.
    + intros j Lj. unfold new_val. simpl. rewrite (op_at_in _ _ _ (wf_nodes g W) No). simpl. apply Vo. auto.
Qed.

Lemma new_event : forall k e, is_event g val k e -> is_event g' new_val k (modified_event d cs e).
Proof.
  intros k [o d' cs' ts a] (No & Lt & Q & A). simpl.
  destruct (Fl _ _ No) as (-> & Lcs & _). destruct cs' as [|]; [|discriminate]. simpl in Q, A, No.
  rewrite app_nil_r, xorb_false_r, Lc. split; [apply new_nodes; exists (Gate o false 0); auto|].
  split; auto. split.
  - intros i q Nq. destruct (Nat.ltb_spec i n) as [L|L].
    + rewrite nth_error_app1 in Nq by lia. replace (Qb q) with (ctl_val (snd (Nd k, i))).
      * apply arrive_ctl. split; simpl; eauto.
      * unfold ctl_val. simpl. f_equal. apply nth_error_nth. auto.
    + rewrite nth_error_app2 in Nq by lia. rewrite Lc in Nq.
      assert (Li : i - n < gop_qubits o) by (rewrite <- Lt; apply nth_error_Some; congruence).
      pose proof (qubit_arrives k o (i - n) No Li) as B. replace (n + (i - n)) with i in B by lia.
      rewrite (arrives_fun _ _ _ (Q _ _ Nq) (ca_gate _ _ _ _ _ _ Ca k o false 0 No _ Li)). auto.
  - destruct a as [v|]; auto. destruct A as [A1 A2]. split; auto.
    apply (arrive_kept (Nd k, gop_qubits o) _ false); auto.
    + unfold target. simpl. exists (Gate o false 0). split; auto. simpl. rewrite nth_repeat_app, nth_repeat', A1.
      rewrite Nat.ltb_irrefl, Nat.sub_diag. auto.
    + apply andb_false_r.
    + simpl. exists (Gate o false 0). split; auto. split; [lia|]. rewrite Nat.ltb_irrefl, andb_false_r. auto.
Qed.

Lemma trace_app : forall gr v l es m fs, trace (V := V) gr v l es -> trace gr v m fs -> trace gr v (l ++ m) (es ++ fs).
Proof.
  intros gr v l es m fs T. induction T; intros T'; simpl; auto.
  - constructor; auto.
  - apply trace_copied with lab ins0 outs0; auto.
Qed.

Lemma new_trace : forall l es, trace g val l es -> trace g' new_val l (map (modified_event d cs) es).
Proof.
  intros l es T. induction T; simpl.
  - constructor.
  - constructor; auto. apply new_event. auto.
  - apply trace_copied with lab ins0 outs0; auto. apply new_nodes. exists (Copied lab ins0 outs0). auto.
Qed.

Lemma trace_split : forall l es, trace g val l es ->
  trace g val (filter (fun k => negb (is_gate (op_at (g_nodes g) k))) l) [] /\
  trace g val (rev (gates_of (g_nodes g) l)) (rev es).
Proof.
  intros l es T. induction T; simpl.
  - split; constructor.
  - destruct IHT as [A B]. assert (is_gate (op_at (g_nodes g) k) = true) as Q.
    { destruct e. destruct H as [J _]. rewrite (op_at_in _ _ _ (wf_nodes g W) J). auto. }
    rewrite Q. simpl. split; auto. apply trace_app; auto. constructor; auto. constructor.
  - destruct IHT as [A B]. rewrite (op_at_in _ _ _ (wf_nodes g W) H). simpl. split; auto.
    apply trace_copied with lab ins0 outs0; auto.
Qed.

Lemma new_trace_order : forall es, trace g val order es ->
  trace g' new_val new_order (modified_events d cs es).
Proof.
  intros es T. unfold modified_events, new_order. destruct (Bool.bool_dec d true) as [Ed|Ed].
  - destruct (trace_split _ _ T) as [A B]. apply new_trace in A. apply new_trace in B.
    rewrite Ed in *. simpl in A. apply (trace_app _ _ _ _ _ _ A B).
  - apply not_true_is_false in Ed. apply new_trace in T. rewrite Ed in *. auto.
Qed.
End Values.
End Region.
