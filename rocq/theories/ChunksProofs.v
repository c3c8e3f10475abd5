(** Lemmas on reassembling chunks. *)
From Coq Require Import List Bool Arith Lia Permutation.
From Verif Require Import ChunksSpec ChunksModel.
Import ListNotations.
Open Scope nat_scope.

Lemma name_eqb_eq : forall a b, name_eqb a b = true <-> a = b.
Proof.
  intros [a1 a2] [b1 b2]. unfold name_eqb. simpl. rewrite andb_true_iff, !Nat.eqb_eq. split; [intros [-> ->]; reflexivity|].
  intro E. injection E as -> ->. auto.
Qed.
Lemma name_eqb_neq : forall a b, name_eqb a b = false <-> a <> b.
Proof. intros. rewrite <- name_eqb_eq. destruct (name_eqb a b); split; congruence. Qed.
Lemma name_dec : forall a b : name, {a = b} + {a <> b}.
Proof. intros. destruct (name_eqb a b) eqn:E; [left; apply name_eqb_eq|right; apply name_eqb_neq]; assumption. Qed.

Section Maps.
Variable A : Type.
Implicit Type m : list (name * A).
Lemma hget_cons : forall k v m w, hget ((k, v) :: m) w = if name_eqb k w then Some v else hget m w.
Proof. intros. unfold hget. simpl. destruct (name_eqb k w); reflexivity. Qed.
Lemma hget_insert : forall k v m w, hget (hinsert k v m) w = if name_eqb k w then Some v else hget m w.
Proof.
  intros. unfold hinsert. rewrite hget_cons. destruct (name_eqb k w) eqn:E; [reflexivity|].
  induction m as [|[k' v'] m IH]; [reflexivity|]. simpl. destruct (name_eqb k' k) eqn:E'; simpl.
  - rewrite hget_cons. apply name_eqb_eq in E'. subst. rewrite E. assumption.
  - rewrite !hget_cons. destruct (name_eqb k' w); [reflexivity|assumption].
Qed.
Lemma hget_In : forall m w v, hget m w = Some v -> In (w, v) m.
Proof.
  induction m as [|[k x] m IH]; intros w v H; [discriminate|]. rewrite hget_cons in H.
  destruct (name_eqb k w) eqn:E; [apply name_eqb_eq in E; injection H as ->; subst; left; reflexivity|right; auto].
Qed.
Lemma In_hget : forall m w v, NoDup (map fst m) -> In (w, v) m -> hget m w = Some v.
Proof.
  induction m as [|[k x] m IH]; intros w v ND H; [destruct H|]. rewrite hget_cons. inversion ND; subst. simpl in *.
  destruct H as [E|H].
  - injection E as -> ->. rewrite (proj2 (name_eqb_eq w w) eq_refl). reflexivity.
  - destruct (name_eqb k w) eqn:E; [|auto]. apply name_eqb_eq in E. subst. exfalso. apply H2.
    change w with (fst (w, v)). apply in_map. assumption.
Qed.
Lemma hget_None : forall m w, hget m w = None <-> ~ In w (map fst m).
Proof.
  induction m as [|[k x] m IH]; intro w; [simpl; split; [auto|reflexivity]|]. rewrite hget_cons. simpl.
  destruct (name_eqb k w) eqn:E.
  - apply name_eqb_eq in E. split; [discriminate|intro H; exfalso; auto].
  - apply name_eqb_neq in E. rewrite IH. split; [intros H [H'|H']; auto|intros H H'; auto].
Qed.
Lemma hinsert_keys : forall k v m, NoDup (map fst m) -> NoDup (map fst (hinsert k v m)).
Proof.
  intros k v m ND. unfold hinsert. simpl. constructor.
  - intro H. apply in_map_iff in H. destruct H as ([k' v'] & E & H). simpl in E. subst. apply filter_In in H.
    destruct H as [_ H]. simpl in H. rewrite (proj2 (name_eqb_eq k k) eq_refl) in H. discriminate.
  - induction m as [|[k' v'] m IH]; [constructor|]. simpl in *. inversion ND; subst.
    destruct (negb (name_eqb k' k)); simpl; auto. constructor; auto. intro H. apply H1.
    apply in_map_iff in H. destruct H as (x & E & Hx). apply filter_In in Hx. rewrite <- E. apply in_map. apply Hx.
Qed.
Lemma hinsert_fresh : forall k v m, ~ In k (map fst m) -> hinsert k v m = (k, v) :: m.
Proof.
  intros k v m H. unfold hinsert. f_equal. induction m as [|[k' v'] m IH]; [reflexivity|]. simpl in *.
  destruct (name_eqb k' k) eqn:E; [apply name_eqb_eq in E; subst; exfalso; auto|]. simpl. f_equal. apply IH. auto.
Qed.
End Maps.

Lemma indexed_In : forall (A : Type) (l : list A) k x, In (k, x) (indexed l) <-> nth_error l k = Some x.
Proof.
  intros A l k x. unfold indexed. assert (G : forall s, In (s + k, x) (combine (seq s (length l)) l) <-> nth_error l k = Some x).
  { revert k. induction l as [|y l IH]; intros k s; simpl.
    - split; [intros []|destruct k; discriminate].
    - destruct k as [|k]; simpl.
      + rewrite Nat.add_0_r. split.
        * intros [E|H]; [injection E as ->; reflexivity|]. apply in_combine_l, in_seq in H. lia.
        * intro E. injection E as ->. left; reflexivity.
      + rewrite <- (IH k (S s)). replace (S s + k) with (s + S k) by lia. split; [intros [E|H]; [|assumption]|auto].
        injection E as E _. lia. }
  apply (G 0).
Qed.

Lemma all_some_nth : forall (A : Type) (l : list (option A)) xs, all_some l = Some xs ->
  length xs = length l /\ forall i, nth_error l i = option_map Some (nth_error xs i).
Proof.
  induction l as [|[x|] l IH]; simpl; intros xs H; try discriminate.
  - injection H as <-. split; [reflexivity|]. intros [|i]; reflexivity.
  - destruct (all_some l) as [ys|]; [|discriminate]. injection H as <-. destruct (IH ys eq_refl) as [L N].
    split; [simpl; congruence|]. intros [|i]; simpl; auto.
Qed.
Lemma all_some_map : forall (A B : Type) (f : A -> option B) l xs, all_some (map f l) = Some xs ->
  length xs = length l /\ forall i y, nth_error xs i = Some y <-> exists x, nth_error l i = Some x /\ f x = Some y.
Proof.
  intros A B f l xs H. apply all_some_nth in H. rewrite map_length in H. destruct H as [L N]. split; [assumption|].
  intros i y. specialize (N i). rewrite nth_error_map in N. destruct (nth_error l i) as [x|]; destruct (nth_error xs i) as [z|]; simpl in N; try discriminate.
  - injection N as N. split; [intro E; injection E as <-; eauto|]. intros (x' & E & E'). injection E as <-. congruence.
  - split; [discriminate|]. intros (x & E & _). discriminate.
Qed.
Lemma all_some_intro : forall (A B : Type) (f : A -> option B) l, (forall x, In x l -> f x <> None) -> exists xs, all_some (map f l) = Some xs.
Proof.
  induction l as [|x l IH]; simpl; intro H; [eauto|]. destruct (f x) eqn:E; [|exfalso; apply (H x); auto].
  destruct IH as (xs & ->); eauto.
Qed.

Section Reassemble.
Variable op : Type.
Variable iter : forall A : Type, list (name * A) -> list (name * A).
Hypothesis iter_perm : forall A (l : list (name * A)), Permutation (iter A l) l.
Notation named_chunk := (named_chunk op).
Notation state := (state op).

(** What the names stand for. *)
Definition renv : Type := name -> option source.
Definition chunk_src (base : nat) (c : named_chunk) (re : renv) (s : csrc) : option source :=
  match s with
  | FromIn i => match nth_error (c_ins op c) i with Some w => re w | None => None end
  | FromNode k p => Some (SOut (base + k) p)
  end.
Definition means (re : renv) (t : ctarget) (s : source) : Prop :=
  match t with
  | InsertedOutput n p => s = SOut n p
  | Transitive m => re m = Some s
  | InsertedInput _ _ => False
  end.

Record named (src : list (name * source)) (tr : list (name * name)) (re : renv) : Prop := {
  n_known : forall w s, re w = Some s -> hget src (merged tr w) = Some s;
  n_new : forall w, re w = None -> hget src w = None /\ hget tr w = None }.

Lemma merged_known : forall src tr re w s, named src tr re -> re w = Some s -> re (merged tr w) <> None.
Proof.
  intros src tr re w s I H E. apply (n_new _ _ _ I) in E. rewrite (n_known _ _ _ I w s H) in E. destruct E; discriminate.
Qed.

Lemma add_outgoing_ok : forall (os : list (name * ctarget)) src tr re0 re,
  named src tr re -> NoDup (map fst os) -> NoDup (map fst src) -> (forall w, In w (map fst os) -> re w = None) ->
  (forall m s, re0 m = Some s -> re m = Some s) ->
  (forall w t, In (w, t) os -> exists s, means re0 t s) ->
  exists src' tr' re', add_outgoing os src tr = Some (src', tr') /\ named src' tr' re' /\ NoDup (map fst src') /\
    (forall w t s, In (w, t) os -> means re0 t s -> re' w = Some s) /\
    (forall w, ~ In w (map fst os) -> re' w = re w) /\
    (forall w s, re w = Some s -> merged tr' w = merged tr w).
Proof.
  induction os as [|[w t] os IH]; intros src tr re0 re I ND NS Hf H0 Hm.
  - exists src, tr, re. simpl. split; [reflexivity|]. split; [assumption|]. split; [assumption|]. split; [intros ? ? ? []|]. auto.
  - inversion ND as [|? ? Hn ND']; subst. destruct (Hm w t (or_introl eq_refl)) as (s & Hs).
    assert (Hw : re w = None) by (apply Hf; left; reflexivity).
    set (re1 := fun x => if name_eqb w x then Some s else re x).
    assert (Hf1 : forall x, In x (map fst os) -> re1 x = None).
    { intros x Hx. unfold re1. destruct (name_eqb w x) eqn:E; [apply name_eqb_eq in E; subst; contradiction|]. apply Hf. right. assumption. }
    assert (H1 : forall m s', re0 m = Some s' -> re1 m = Some s').
    { intros m s' Hms. apply H0 in Hms. unfold re1. destruct (name_eqb w m) eqn:E; [apply name_eqb_eq in E; subst; congruence|assumption]. }
    assert (Keep : forall x s', re x = Some s' -> x <> w) by (intros x s' Hx ->; congruence).
    destruct t as [n p|n p|m]; simpl in Hs.
    + destruct Hs.
    + subst s. assert (I1 : named (hinsert w (SOut n p) src) tr re1).
      { split; unfold re1; intros x.
        - intros s' Hx. rewrite hget_insert. destruct (name_eqb w x) eqn:E.
          + apply name_eqb_eq in E. subst x. unfold merged. rewrite (proj2 (n_new _ _ _ I w Hw)).
            rewrite (proj2 (name_eqb_eq w w) eq_refl). assumption.
          + destruct (name_eqb w (merged tr x)) eqn:E'; [|apply (n_known _ _ _ I); assumption].
            apply name_eqb_eq in E'. exfalso. apply (merged_known _ _ _ _ _ I Hx). congruence.
        - destruct (name_eqb w x) eqn:E; [discriminate|]. intro Hx. rewrite hget_insert, E. apply (n_new _ _ _ I). assumption. }
      destruct (IH _ _ re0 re1 I1 ND' (hinsert_keys _ _ _ _ NS) Hf1 H1 (fun x y h => Hm x y (or_intror h))) as (src' & tr' & re' & E & I' & NS' & A1 & A2 & A3).
      exists src', tr', re'. split; [exact E|]. split; [exact I'|]. split; [exact NS'|]. split; [|split].
      * intros x y s' [Ex|Hx] Hms; [|eapply A1; eassumption]. injection Ex as <- <-. simpl in Hms. subst s'.
        rewrite A2 by assumption. unfold re1. rewrite (proj2 (name_eqb_eq w w) eq_refl). reflexivity.
      * intros x Hx. simpl in Hx. rewrite A2 by auto. unfold re1. destruct (name_eqb w x) eqn:Ew; [apply name_eqb_eq in Ew; exfalso; auto|reflexivity].
      * intros x s' Hx. apply A3 with s'. unfold re1. rewrite (proj2 (name_eqb_neq w x)); [assumption|]. intros ->. congruence.
    + assert (I1 : named src (hinsert w (merged tr m) tr) re1).
      { split; unfold re1; intros x.
        - intros s' Hx. unfold merged at 1. rewrite hget_insert. destruct (name_eqb w x) eqn:E.
          + injection Hx as <-. apply (n_known _ _ _ I). apply H0. assumption.
          + apply (n_known _ _ _ I). assumption.
        - destruct (name_eqb w x) eqn:E; [discriminate|]. intro Hx. rewrite hget_insert, E. apply (n_new _ _ _ I). assumption. }
      destruct (IH _ _ re0 re1 I1 ND' NS Hf1 H1 (fun x y h => Hm x y (or_intror h))) as (src' & tr' & re' & E & I' & NS' & A1 & A2 & A3).
      exists src', tr', re'. split; [exact E|]. split; [exact I'|]. split; [exact NS'|]. split; [|split].
      * intros x y s' [Ex|Hx] Hms; [|eapply A1; eassumption]. injection Ex as <- <-. simpl in Hms.
        rewrite A2 by assumption. unfold re1. rewrite (proj2 (name_eqb_eq w w) eq_refl). congruence.
      * intros x Hx. simpl in Hx. rewrite A2 by auto. unfold re1. destruct (name_eqb w x) eqn:Ew; [apply name_eqb_eq in Ew; exfalso; auto|reflexivity].
      * intros x s' Hx. rewrite A3 with (s := s').
        { unfold merged. rewrite hget_insert. rewrite (proj2 (name_eqb_neq w x)); [reflexivity|]. intros ->. congruence. }
        unfold re1. rewrite (proj2 (name_eqb_neq w x)); [assumption|]. intros ->. congruence.
Qed.

(** Targets. *)
Definition tget (tg : list (name * list target)) (m : name) : list target := match hget tg m with Some l => l | None => [] end.
Lemma push_ok : forall w t tg m x, In x (tget (push_target w t tg) m) <-> In x (tget tg m) \/ (x = t /\ m = w).
Proof.
  intros. unfold tget, push_target. rewrite hget_insert. destruct (name_eqb w m) eqn:E.
  - apply name_eqb_eq in E. subst m. destruct (hget tg w); [rewrite in_app_iff|]; simpl; intuition.
  - apply name_eqb_neq in E. split; [auto|]. intros [H|[_ ->]]; [assumption|congruence].
Qed.
Lemma add_targets_ok : forall w ts tg, (forall n p, ~ In (InsertedOutput n p) ts) ->
  exists tg', add_targets w ts tg = Some tg' /\
    forall m x, In x (tget tg' m) <-> In x (tget tg m) \/ (m = w /\ exists n p, x = TNode n p /\ In (InsertedInput n p) ts).
Proof.
  induction ts as [|t ts IH]; intros tg Hn; simpl.
  - exists tg. split; [reflexivity|]. intros. split; [auto|]. intros [H|(_ & n & p & _ & [])]. assumption.
  - assert (Hn' : forall n p, ~ In (InsertedOutput n p) ts) by (intros n p H; apply (Hn n p); right; assumption).
    destruct t as [n p|n p|m0].
    + destruct (IH (push_target w (TNode n p) tg) Hn') as (tg' & E & H). exists tg'. split; [exact E|]. intros m x.
      rewrite H, push_ok. split.
      * intros [[H1|[-> ->]]|(-> & n' & p' & -> & H1)]; auto; right; eauto 8.
      * intros [H1|(-> & n' & p' & -> & [E1|H1])]; auto; [injection E1 as -> ->; auto|right; eauto].
    + exfalso. apply (Hn n p). left; reflexivity.
    + destruct (IH tg Hn') as (tg' & E & H). exists tg'. split; [exact E|]. intros m x. rewrite H. split.
      * intros [H1|(-> & n' & p' & -> & H1)]; auto; right; eauto 8.
      * intros [H1|(-> & n' & p' & -> & [E1|H1])]; auto; [discriminate|right; eauto].
Qed.
Lemma add_incoming_ok : forall (is : list (name * list ctarget)) tr tg,
  (forall w ts n p, In (w, ts) is -> ~ In (InsertedOutput n p) ts) ->
  exists tg', add_incoming is tr tg = Some tg' /\
    forall m x, In x (tget tg' m) <-> In x (tget tg m) \/
      exists w ts n p, In (w, ts) is /\ m = merged tr w /\ x = TNode n p /\ In (InsertedInput n p) ts.
Proof.
  induction is as [|[w ts] is IH]; intros tr tg Hn; simpl.
  - exists tg. split; [reflexivity|]. intros. split; [auto|]. intros [H|(w & ts & n & p & [] & _)]. assumption.
  - destruct (add_targets_ok (merged tr w) ts tg (fun n p => Hn w ts n p (or_introl eq_refl))) as (tg1 & E1 & H1). rewrite E1.
    destruct (IH tr tg1 (fun a b n p h => Hn a b n p (or_intror h))) as (tg' & E & H). exists tg'. split; [exact E|].
    intros m x. rewrite H, H1. split.
    + intros [[H2|(-> & n & p & -> & H2)]|(w' & ts' & n & p & H2 & H3)]; auto; right; [exists w, ts, n, p; auto|exists w', ts', n, p; tauto].
    + intros [H2|(w' & ts' & n & p & [E2|H2] & -> & -> & H3)]; auto.
      * injection E2 as -> ->. left. right. eauto.
      * right. exists w', ts', n, p. auto.
Qed.

(** Links. *)
Lemma node_links_ok : forall b i k p, In (k, p) (node_links op b i) <->
  exists o ss, nth_error (b_nodes op b) k = Some (o, ss) /\ nth_error ss p = Some (FromIn i).
Proof.
  intros. unfold node_links. rewrite in_flat_map. split.
  - intros ([k' [o ss]] & H1 & H2). apply in_flat_map in H2. destruct H2 as ([p' s] & H2 & H3). simpl in *.
    destruct (is_in i s) eqn:E; [|destruct H3]. destruct H3 as [E3|[]]. injection E3 as -> ->.
    apply indexed_In in H1. apply indexed_In in H2. exists o, ss. split; [assumption|]. destruct s; simpl in E; [|discriminate].
    apply Nat.eqb_eq in E. subst. assumption.
  - intros (o & ss & H1 & H2). exists (k, (o, ss)). split; [apply indexed_In; assumption|]. apply in_flat_map.
    exists (p, FromIn i). split; [apply indexed_In; assumption|]. simpl. rewrite Nat.eqb_refl. left; reflexivity.
Qed.
Lemma out_links_ok : forall b i p, In p (out_links op b i) <-> nth_error (b_outs op b) p = Some (FromIn i).
Proof.
  intros. unfold out_links. rewrite in_flat_map. split.
  - intros ([p' s] & H1 & H2). simpl in *. destruct (is_in i s) eqn:E; [|destruct H2]. destruct H2 as [->|[]].
    apply indexed_In in H1. destruct s; simpl in E; [|discriminate]. apply Nat.eqb_eq in E. subst. assumption.
  - intro H. exists (p, FromIn i). split; [apply indexed_In; assumption|]. simpl. rewrite Nat.eqb_refl. left; reflexivity.
Qed.
Lemma internal_ok : forall base b s t, In (s, t) (internal_edges op base b) <->
  exists k o ss p k' p', nth_error (b_nodes op b) k = Some (o, ss) /\ nth_error ss p = Some (FromNode k' p') /\
    s = SOut (base + k') p' /\ t = TNode (base + k) p.
Proof.
  intros. unfold internal_edges. rewrite in_flat_map. split.
  - intros ([k [o ss]] & H1 & H2). apply in_flat_map in H2. destruct H2 as ([p s'] & H2 & H3). simpl in *.
    destruct s' as [i|k' p']; [destruct H3|]. destruct H3 as [E|[]]. injection E as <- <-.
    apply indexed_In in H1. apply indexed_In in H2. exists k, o, ss, p, k', p'. auto.
  - intros (k & o & ss & p & k' & p' & H1 & H2 & -> & ->). exists (k, (o, ss)). split; [apply indexed_In; assumption|].
    apply in_flat_map. exists (p, FromNode k' p'). split; [apply indexed_In; assumption|]. left; reflexivity.
Qed.

(** Inserting. *)
Lemma insert_inputs_ok : forall f ins m, NoDup (map snd ins) -> (forall w, In w (map snd ins) -> ~ In w (map fst m)) ->
  (forall i w, In (i, w) ins -> f i <> None) ->
  exists m', insert_inputs f ins m = Some m' /\
    forall w ts, In (w, ts) m' <-> In (w, ts) m \/ exists i, In (i, w) ins /\ f i = Some ts.
Proof.
  induction ins as [|[i w] ins IH]; intros m ND Hd Hf; simpl.
  - exists m. split; [reflexivity|]. intros. split; [auto|]. intros [H|(i & [] & _)]. assumption.
  - simpl in ND. inversion ND as [|? ? Hn ND']; subst. destruct (f i) as [ts|] eqn:E; [|exfalso; apply (Hf i w); [left; reflexivity|assumption]].
    rewrite hinsert_fresh by (apply Hd; left; reflexivity).
    destruct (IH ((w, ts) :: m) ND') as (m' & E' & H).
    + intros w' Hw' [E''|H'']; [simpl in E''; subst; contradiction|]. apply (Hd w'); [right; assumption|assumption].
    + intros i' w' H'. apply (Hf i' w'). right; assumption.
    + exists m'. split; [exact E'|]. intros w' ts'. rewrite H. simpl. split.
      * intros [[E1|H1]|(i' & H1 & H2)]; auto; right; [injection E1 as <- <-; exists i; auto|exists i'; auto].
      * intros [H1|(i' & [E1|H1] & H2)]; auto; [injection E1 as <- <-; left; left; congruence|right; exists i'; auto].
Qed.
Lemma insert_outputs_ok : forall f outs m, NoDup (map fst outs) -> (forall w, In w (map fst outs) -> ~ In w (map fst m)) ->
  (forall w s, In (w, s) outs -> f s <> None) -> NoDup (map fst m) ->
  exists m', insert_outputs f outs m = Some m' /\ NoDup (map fst m') /\
    forall w t, In (w, t) m' <-> In (w, t) m \/ exists s, In (w, s) outs /\ f s = Some t.
Proof.
  induction outs as [|[w s] outs IH]; intros m ND Hd Hf Nm; simpl.
  - exists m. split; [reflexivity|]. split; [assumption|]. intros. split; [auto|]. intros [H|(i & [] & _)]. assumption.
  - simpl in ND. inversion ND as [|? ? Hn ND']; subst. destruct (f s) as [t|] eqn:E; [|exfalso; apply (Hf w s); [left; reflexivity|assumption]].
    rewrite hinsert_fresh by (apply Hd; left; reflexivity).
    destruct (IH ((w, t) :: m) ND') as (m' & E' & N' & H).
    + intros w' Hw' [E''|H'']; [simpl in E''; subst; contradiction|]. apply (Hd w'); [right; assumption|assumption].
    + intros w' s' H'. apply (Hf w' s'). right; assumption.
    + simpl. constructor; [apply Hd; left; reflexivity|assumption].
    + exists m'. split; [exact E'|]. split; [exact N'|]. intros w' t'. rewrite H. simpl. split.
      * intros [[E1|H1]|(s' & H1 & H2)]; auto; right; [injection E1 as <- <-; exists s; auto|exists s'; auto].
      * intros [H1|(s' & [E1|H1] & H2)]; auto; [injection E1 as <- <-; left; left; congruence|right; exists s'; auto].
Qed.
Lemma map_snd_indexed : forall (A : Type) (l : list A), map snd (indexed l) = l.
Proof.
  intros. unfold indexed. generalize 0 as s. induction l; intro s; simpl; [reflexivity|]. f_equal. apply IHl.
Qed.
Lemma map_fst_comb : forall (A B : Type) (a : list A) (b : list B), length a = length b -> map fst (combine a b) = a.
Proof. induction a; destruct b; simpl; intros; try discriminate; auto. f_equal. apply IHa. lia. Qed.
Lemma combine_nth : forall (A B : Type) (a : list A) (b : list B) x y, In (x, y) (combine a b) <-> exists i, nth_error a i = Some x /\ nth_error b i = Some y.
Proof.
  induction a as [|x' a IH]; intros [|y' b] x y; simpl.
  - split; [intros []|]. intros ([|i] & H & _); discriminate.
  - split; [intros []|]. intros ([|i] & H & _); discriminate.
  - split; [intros []|]. intros ([|i] & _ & H); discriminate.
  - rewrite IH. split.
    + intros [E|(i & H1 & H2)]; [injection E as -> ->; exists 0; auto|exists (S i); auto].
    + intros ([|i] & H1 & H2); simpl in *; [left; congruence|right; eauto].
Qed.

(** A chunk that can be inserted: names distinct, sources in range. *)
Record good_chunk (c : named_chunk) : Prop := {
  gc_ins : NoDup (c_ins op c);
  gc_outs : NoDup (c_outs op c);
  gc_len : length (c_outs op c) = length (b_outs op (c_body op c));
  gc_nodes : forall k o ss i, nth_error (b_nodes op (c_body op c)) k = Some (o, ss) -> In (FromIn i) ss -> i < length (c_ins op c);
  gc_bouts : forall i, In (FromIn i) (b_outs op (c_body op c)) -> i < length (c_ins op c);
  gc_empty : b_nodes op (c_body op c) = [] -> forall k p, ~ In (FromNode k p) (b_outs op (c_body op c)) }.

Lemma insert_ok : forall base c, good_chunk c -> exists r, insert op base c = Some r /\
  NoDup (map fst (outgoing r)) /\
  (forall w t, In (w, t) (outgoing r) <-> exists i s, nth_error (c_outs op c) i = Some w /\ nth_error (b_outs op (c_body op c)) i = Some s /\
      match s with FromNode k p => t = InsertedOutput (base + k) p | FromIn j => exists m, nth_error (c_ins op c) j = Some m /\ t = Transitive m end) /\
  (forall w ts n p, In (w, ts) (incoming r) -> ~ In (InsertedOutput n p) ts) /\
  (forall n p w, (exists ts, In (w, ts) (incoming r) /\ In (InsertedInput n p) ts) <->
     exists k i o ss, n = base + k /\ nth_error (c_ins op c) i = Some w /\ nth_error (b_nodes op (c_body op c)) k = Some (o, ss) /\ nth_error ss p = Some (FromIn i)).
Proof.
  intros base c G.
  set (fi := fun i => match b_nodes op (c_body op c) with [] => empty_input_targets op c i | _ => input_targets op base c i end).
  set (fo := fun s => match b_nodes op (c_body op c) with [] => empty_output_target op c s | _ => output_target op base c s end).
  assert (NL : b_nodes op (c_body op c) = [] -> forall i, node_links op (c_body op c) i = []) by (intros E i; unfold node_links; rewrite E; reflexivity).
  assert (W : forall i, exists ws, all_some (map (nth_error (c_outs op c)) (out_links op (c_body op c) i)) = Some ws).
  { intro i. apply all_some_intro. intros p Hp. apply out_links_ok in Hp. apply nth_error_Some. rewrite (gc_len c G). apply nth_error_Some. congruence. }
  assert (Fi : forall i, exists ws, fi i = Some (map (fun kp => InsertedInput (base + fst kp) (snd kp)) (node_links op (c_body op c) i) ++ map Transitive ws)).
  { intro i. destruct (W i) as (ws & Ew). exists ws. unfold fi, empty_input_targets, input_targets. rewrite Ew.
    destruct (b_nodes op (c_body op c)) eqn:En; [rewrite (NL eq_refl i)|]; reflexivity. }
  assert (Fo : forall s, In s (b_outs op (c_body op c)) -> fo s = match s with FromNode k p => Some (InsertedOutput (base + k) p)
       | FromIn i => match nth_error (c_ins op c) i with Some w => Some (Transitive w) | None => None end end).
  { intros s Hs. unfold fo, empty_output_target, output_target. destruct (b_nodes op (c_body op c)) eqn:En; [|reflexivity].
    destruct s; [reflexivity|]. exfalso. eapply (gc_empty c G En). exact Hs. }
  destruct (insert_inputs_ok fi (indexed (c_ins op c)) []) as (im & Ei & Hi).
  { rewrite map_snd_indexed. apply (gc_ins c G). } { intros; intros []. }
  { intros i w _. destruct (Fi i) as (ws & ->). discriminate. }
  destruct (insert_outputs_ok fo (combine (c_outs op c) (b_outs op (c_body op c))) []) as (om & Eo & No & Ho).
  { rewrite map_fst_comb by apply (gc_len c G). apply (gc_outs c G). } { intros; intros []. }
  { intros w s Hs. apply in_combine_r in Hs. rewrite (Fo s Hs). destruct s as [i|k p]; [|discriminate].
    apply (gc_bouts c G) in Hs. apply nth_error_Some in Hs. destruct (nth_error (c_ins op c) i); congruence. }
  { constructor. }
  exists {| incoming := im; outgoing := om |}. split.
  { unfold insert, insert_empty, insert_nonempty. unfold fi, fo in *. destruct (b_nodes op (c_body op c)).
    - change (insert_inputs (empty_input_targets op c) (indexed (c_ins op c)) [] = Some im) in Ei.
      change (insert_outputs (empty_output_target op c) (combine (c_outs op c) (b_outs op (c_body op c))) [] = Some om) in Eo.
      rewrite Ei, Eo. reflexivity.
    - change (insert_inputs (input_targets op base c) (indexed (c_ins op c)) [] = Some im) in Ei.
      change (insert_outputs (output_target op base c) (combine (c_outs op c) (b_outs op (c_body op c))) [] = Some om) in Eo.
      rewrite Ei, Eo. reflexivity. }
  simpl. split; [exact No|]. split; [|split].
  - intros w t. rewrite Ho. split.
    + intros [[]|(s & H1 & H2)]. pose proof (in_combine_r _ _ _ _ H1) as Hs. rewrite (Fo s Hs) in H2. apply combine_nth in H1.
      destruct H1 as (i & H3 & H4). exists i, s. split; [assumption|]. split; [assumption|]. destruct s as [j|k p]; [|congruence].
      destruct (nth_error (c_ins op c) j); [|discriminate]. injection H2 as <-. eauto.
    + intros (i & s & H1 & H2 & H3). right. exists s. split; [apply combine_nth; eauto|]. rewrite (Fo s (nth_error_In _ _ H2)).
      destruct s as [j|k p]; [|congruence]. destruct H3 as (m & -> & ->). reflexivity.
  - intros w ts n p H Hin. apply Hi in H. destruct H as [[]|(i & _ & E)]. destruct (Fi i) as (ws & E'). rewrite E in E'. injection E' as ->.
    apply in_app_iff in Hin. destruct Hin as [Hin|Hin]; apply in_map_iff in Hin; destruct Hin as (x & Ex & _); discriminate.
  - intros n p w. split.
    + intros (ts & H & Hin). apply Hi in H. destruct H as [[]|(i & H1 & E)]. apply indexed_In in H1.
      destruct (Fi i) as (ws & E'). rewrite E in E'. injection E' as ->.
      apply in_app_iff in Hin. destruct Hin as [Hin|Hin]; apply in_map_iff in Hin; destruct Hin as (x & Ex & Hx); [|discriminate].
      destruct x as [k p']. simpl in Ex. injection Ex as <- <-. apply node_links_ok in Hx. destruct Hx as (o & ss & H2 & H3).
      exists k, i, o, ss. auto.
    + intros (k & i & o & ss & -> & H1 & H2 & H3). destruct (Fi i) as (ws & E). eexists. split.
      * apply Hi. right. exists i. split; [apply indexed_In; assumption|exact E].
      * apply in_app_iff. left. apply in_map_iff. exists (k, p). split; [reflexivity|]. apply node_links_ok. eauto.
Qed.

(** The state after some chunks: [re] gives the names their sources, [log] the external reads. *)
Record ok (st : state) (re : renv) (log : target -> name -> Prop) : Prop := {
  ok_named : named (sources op st) (transitive op st) re;
  ok_keys : NoDup (map fst (sources op st));
  ok_log : forall t w, log t w -> re w <> None /\ exists n p, t = TNode n p /\ n < length (st_ops op st);
  ok_edges : forall s t, In (s, t) (st_edges op st) -> exists n p, t = TNode n p /\ n < length (st_ops op st);
  ok_targets : forall m t, In t (tget (targets op st) m) <-> exists w, log t w /\ m = merged (transitive op st) w }.
Definition connected (st : state) (re : renv) (log : target -> name -> Prop) (t : target) (s : source) : Prop :=
  In (s, t) (st_edges op st) \/ exists w, log t w /\ re w = Some s.

Lemma add_chunk_ok : forall st re log c, ok st re log -> good_chunk c ->
  (forall w, In w (c_ins op c) -> re w <> None) -> (forall w, In w (c_outs op c) -> re w = None) ->
  exists st' re' log', add_chunk op iter st c = Some st' /\ ok st' re' log' /\
    st_ops op st' = st_ops op st ++ map fst (b_nodes op (c_body op c)) /\
    (forall i w s, nth_error (c_outs op c) i = Some w -> nth_error (b_outs op (c_body op c)) i = Some s ->
        re' w = chunk_src (length (st_ops op st)) c re s) /\
    (forall w, ~ In w (c_outs op c) -> re' w = re w) /\
    (forall n p s, n < length (st_ops op st) -> (connected st' re' log' (TNode n p) s <-> connected st re log (TNode n p) s)) /\
    (forall k p s, connected st' re' log' (TNode (length (st_ops op st) + k) p) s ->
        exists o ss x, nth_error (b_nodes op (c_body op c)) k = Some (o, ss) /\ nth_error ss p = Some x) /\
    (forall k o ss p x s, nth_error (b_nodes op (c_body op c)) k = Some (o, ss) -> nth_error ss p = Some x ->
        (connected st' re' log' (TNode (length (st_ops op st) + k) p) s <-> chunk_src (length (st_ops op st)) c re x = Some s)).
Proof.
  intros st re log c I G Hin Hout. set (base := length (st_ops op st)).
  destruct (insert_ok base c G) as (r & Er & No & Ho & Hi1 & Hi2).
  assert (Keys : forall w, In w (map fst (outgoing r)) <-> In w (c_outs op c)).
  { intro w. rewrite in_map_iff. split.
    - intros ([w' t] & <- & H). apply Ho in H. destruct H as (i & s & H & _). apply nth_error_In in H. assumption.
    - intro H. apply In_nth_error in H. destruct H as (i & H).
      assert (exists s, nth_error (b_outs op (c_body op c)) i = Some s) as (s & Hs).
      { assert (i < length (b_outs op (c_body op c))) as L by (rewrite <- (gc_len c G); apply nth_error_Some; congruence).
        apply nth_error_Some in L. destruct (nth_error (b_outs op (c_body op c)) i) as [s|]; [exists s; reflexivity|congruence]. }
      destruct s as [j|k p].
      + assert (exists m, nth_error (c_ins op c) j = Some m) as (m & Hm).
        { pose proof (gc_bouts c G j (nth_error_In _ _ Hs)) as L. apply nth_error_Some in L. destruct (nth_error (c_ins op c) j) as [m|]; [exists m; reflexivity|congruence]. }
        exists (w, Transitive m). split; [reflexivity|]. apply Ho. exists i, (FromIn j). eauto 8.
      + exists (w, InsertedOutput (base + k) p). split; [reflexivity|]. apply Ho. exists i, (FromNode k p). auto. }
  assert (Pk : Permutation (map fst (iter _ (outgoing r))) (map fst (outgoing r))) by (apply Permutation_map, iter_perm).
  destruct (add_outgoing_ok (iter _ (outgoing r)) (sources op st) (transitive op st) re re) as (src & tr & re' & Eo & I' & NS & A1 & A2 & A3).
  - apply (ok_named _ _ _ I).
  - eapply Permutation_NoDup; [apply Permutation_sym, Pk|assumption].
  - apply (ok_keys _ _ _ I).
  - intros w Hw. apply Hout, Keys. eapply Permutation_in; [exact Pk|assumption].
  - auto.
  - intros w t Hwt. apply (Permutation_in _ (iter_perm _ _)) in Hwt. apply Ho in Hwt. destruct Hwt as (i & s & _ & _ & H).
    destruct s as [j|k p]; [|subst t; eexists; reflexivity]. destruct H as (m & Hm & ->). simpl.
    specialize (Hin m (nth_error_In _ _ Hm)). destruct (re m); [eauto|congruence].
  - destruct (add_incoming_ok (iter _ (incoming r)) tr (targets op st)) as (tg & Ei & Ht).
    { intros w ts n p H. apply (Permutation_in _ (iter_perm _ _)) in H. eapply Hi1; exact H. }
    set (log' := fun t w => log t w \/ exists k i o ss p, t = TNode (base + k) p /\ nth_error (c_ins op c) i = Some w /\
                    nth_error (b_nodes op (c_body op c)) k = Some (o, ss) /\ nth_error ss p = Some (FromIn i)).
    exists {| st_ops := st_ops op st ++ map fst (b_nodes op (c_body op c));
              st_edges := st_edges op st ++ internal_edges op base (c_body op c);
              sources := src; targets := tg; transitive := tr |}, re', log'.
    assert (Old : forall w, ~ In w (c_outs op c) -> re' w = re w).
    { intros w Hw. apply A2. intro H. apply Hw, Keys. eapply Permutation_in; [exact Pk|exact H]. }
    assert (Known : forall w, re w <> None -> re' w = re w).
    { intros w Hw. apply Old. intro H. apply Hw, Hout, H. }
    assert (Len : forall k o ss, nth_error (b_nodes op (c_body op c)) k = Some (o, ss) ->
       base + k < length (st_ops op st ++ map fst (b_nodes op (c_body op c)))).
    { intros k o ss H. rewrite app_length, map_length. fold base. apply Nat.add_lt_mono_l. apply nth_error_Some. congruence. }
    split.
    { unfold add_chunk. fold base. rewrite Er, Eo, Ei. reflexivity. }
    split; [|split; [reflexivity|split; [|split; [exact Old|split; [|split]]]]].
    + split; cbn [sources transitive st_ops st_edges targets].
      * exact I'.
      * exact NS.
      * intros t w [H|(k & i & o & ss & p & -> & H1 & H2 & H3)].
        { destruct (ok_log _ _ _ I t w H) as (H1 & n & p & -> & H2). rewrite (Known w H1). split; [assumption|].
          exists n, p. split; [reflexivity|]. rewrite app_length. lia. }
        { specialize (Hin w (nth_error_In _ _ H1)). rewrite (Known w Hin). split; [assumption|]. exists (base + k), p.
          split; [reflexivity|]. eapply Len. exact H2. }
      * intros s t H. apply in_app_iff in H. destruct H as [H|H].
        { destruct (ok_edges _ _ _ I s t H) as (n & p & -> & Hn). exists n, p. split; [reflexivity|]. rewrite app_length. lia. }
        { apply internal_ok in H. destruct H as (k & o & ss & p & k' & p' & H1 & _ & _ & ->). exists (base + k), p. split; [reflexivity|].
          eapply Len. exact H1. }
      * intros m t. rewrite Ht, (ok_targets _ _ _ I). split.
        { intros [(w & Hw & ->)|(w & ts & n & p & H1 & -> & -> & H2)].
          - exists w. split; [left; assumption|]. destruct (ok_log _ _ _ I t w Hw) as (H1 & _).
            destruct (re w) as [s|] eqn:E; [|congruence]. symmetry. eapply A3. exact E.
          - apply (Permutation_in _ (iter_perm _ _)) in H1. exists w. split; [|reflexivity]. right.
            destruct (proj1 (Hi2 n p w) (ex_intro _ ts (conj H1 H2))) as (k & i & o & ss & -> & H3). exists k, i, o, ss, p. auto. }
        { intros (w & [Hw|(k & i & o & ss & p & -> & H1 & H2 & H3)] & ->).
          - left. exists w. split; [assumption|]. destruct (ok_log _ _ _ I t w Hw) as (H1 & _).
            destruct (re w) as [s|] eqn:E; [|congruence]. eapply A3. exact E.
          - right. destruct (proj2 (Hi2 (base + k) p w)) as (ts & H4 & H5); [exists k, i, o, ss; auto|].
            exists w, ts, (base + k), p. split; [|auto]. eapply Permutation_in; [apply Permutation_sym, iter_perm|exact H4]. }
    + intros i w s H1 H2. unfold chunk_src.
      assert (X : forall t s', In (w, t) (outgoing r) -> means re t s' -> re' w = Some s').
      { intros t s' H3 H4. eapply A1; [|exact H4]. eapply Permutation_in; [apply Permutation_sym, iter_perm|exact H3]. }
      destruct s as [j|k p].
      * pose proof (gc_bouts c G j (nth_error_In _ _ H2)) as L. apply nth_error_Some in L.
        destruct (nth_error (c_ins op c) j) as [m|] eqn:Em; [|congruence].
        specialize (Hin m (nth_error_In _ _ Em)). destruct (re m) as [s'|] eqn:Es; [|congruence].
        apply (X (Transitive m)); [|exact Es]. apply Ho. exists i, (FromIn j). eauto 8.
      * apply (X (InsertedOutput (base + k) p)); [|reflexivity]. apply Ho. exists i, (FromNode k p). auto.
    + intros n p s Hn. unfold connected. cbn [st_edges]. rewrite in_app_iff. split.
      * intros [[H|H]|(w & [H|(k & i & o & ss & p' & E & _)] & Hs)].
        { left; assumption. }
        { apply internal_ok in H. destruct H as (k & o & ss & p' & k' & p'' & _ & _ & _ & E). injection E as -> _. lia. }
        { right. exists w. split; [assumption|]. rewrite <- (Known w); [assumption|]. apply (ok_log _ _ _ I _ _ H). }
        { injection E as -> _. lia. }
      * intros [H|(w & H & Hs)]; [left; left; assumption|]. right. exists w. split; [left; assumption|].
        rewrite (Known w); [assumption|congruence].
    + intros k p s. unfold connected. cbn [st_edges]. rewrite in_app_iff.
      assert (Absurd : forall n0 p0, TNode (base + k) p = TNode n0 p0 -> n0 < base -> False) by (intros n0 p0 E L; injection E as <- _; lia).
      intros [[H|H]|(w & [H|(k' & i & o' & ss' & p' & E & H1 & H2 & H3)] & Hs)].
      * destruct (ok_edges _ _ _ I _ _ H) as (n0 & p0 & E & L). exfalso. eapply Absurd; eassumption.
      * apply internal_ok in H. destruct H as (k1 & o1 & ss1 & p1 & k2 & p2 & H1 & H2 & -> & E). injection E as E ->.
        assert (k1 = k) by lia. subst k1. exists o1, ss1, (FromNode k2 p2). auto.
      * destruct (ok_log _ _ _ I _ _ H) as (_ & n0 & p0 & E & L). exfalso. eapply Absurd; eassumption.
      * injection E as E ->. assert (k' = k) by lia. subst k'. exists o', ss', (FromIn i). auto.
    + intros k o ss p x s Hk Hp. unfold connected. cbn [st_edges]. rewrite in_app_iff.
      assert (Absurd : forall n0 p0, TNode (base + k) p = TNode n0 p0 -> n0 < base -> False) by (intros n0 p0 E L; injection E as <- _; lia).
      split.
      * intros [[H|H]|(w & [H|(k' & i & o' & ss' & p' & E & H1 & H2 & H3)] & Hs)].
        { destruct (ok_edges _ _ _ I _ _ H) as (n0 & p0 & E & L). exfalso. eapply Absurd; eassumption. }
        { apply internal_ok in H. destruct H as (k1 & o1 & ss1 & p1 & k2 & p2 & H1 & H2 & -> & E). injection E as E ->.
          assert (k1 = k) by lia. subst k1. rewrite Hk in H1. injection H1 as -> ->. rewrite Hp in H2. injection H2 as ->. reflexivity. }
        { destruct (ok_log _ _ _ I _ _ H) as (_ & n0 & p0 & E & L). exfalso. eapply Absurd; eassumption. }
        { injection E as E ->. assert (k' = k) by lia. subst k'. rewrite Hk in H2. injection H2 as <- <-.
          rewrite Hp in H3. injection H3 as ->. simpl. rewrite H1. rewrite <- (Known w); [assumption|].
          apply Hin. eapply nth_error_In; exact H1. }
      * destruct x as [i|k' p']; simpl.
        { destruct (nth_error (c_ins op c) i) as [w|] eqn:Ei'; [|discriminate]. intro Hs. right. exists w. split.
          - right. exists k, i, o, ss, p. auto.
          - rewrite (Known w); [assumption|congruence]. }
        { intro E. injection E as <-. left. right. apply internal_ok. exists k, o, ss, p, k', p'. auto. }
Qed.

(** *** Values *)
Variable V : Type.
Variable sem : op -> list V -> list V.

(** Values and sources agree on names. *)
Definition agrees (ins : list V) (store : list (list V)) (e : list (name * V)) (re : renv) : Prop :=
  forall w, match hget e w with
            | Some v => exists s, re w = Some s /\ value V ins store s = Some v
            | None => re w = None
            end.
Definition below (n : nat) (s : source) : Prop := match s with SIn _ => True | SOut n' _ => n' < n end.
Lemma value_app : forall ins store ext s v, value V ins store s = Some v -> value V ins (store ++ ext) s = Some v.
Proof.
  intros ins store ext [i|n p] v H; simpl in *; [assumption|]. destruct (nth_error store n) as [vs|] eqn:E; [|discriminate].
  rewrite nth_error_app1 by (apply nth_error_Some; congruence). rewrite E. assumption.
Qed.
Lemma value_below : forall ins store s v, value V ins store s = Some v -> below (length store) s.
Proof.
  intros ins store [i|n p] v H; simpl in *; [exact I|]. apply nth_error_Some. destruct (nth_error store n); congruence.
Qed.

(** Every node so far is wired and valued. *)
Definition node_ok (ins : list V) (store : list (list V)) (conn : target -> source -> Prop) (n : nat) (o : op) (a : nat) : Prop :=
  exists vals, length vals = a /\ nth_error store n = Some (sem o vals) /\
    forall p v, nth_error vals p = Some v -> exists s, (forall s', conn (TNode n p) s' <-> s' = s) /\ value V ins store s = Some v /\ below n s.
Definition nodes_ok (ins : list V) (store : list (list V)) (conn : target -> source -> Prop) (ops : list op) (arity : list nat) : Prop :=
  length arity = length ops /\ length store = length ops /\
  forall n o a, nth_error ops n = Some o -> nth_error arity n = Some a -> node_ok ins store conn n o a.

Lemma run_nodes_ok : forall ins nodes acc acc', run_nodes op V sem ins acc nodes = Some acc' ->
  exists new, acc' = acc ++ new /\ length new = length nodes /\
    forall k o ss, nth_error nodes k = Some (o, ss) -> exists vals,
      all_some (map (cvalue V ins (acc ++ firstn k new)) ss) = Some vals /\ nth_error new k = Some (sem o vals).
Proof.
  induction nodes as [|[o ss] nodes IH]; intros acc acc' H; simpl in H.
  - injection H as <-. exists []. rewrite app_nil_r. split; [reflexivity|]. split; [reflexivity|]. intros [|k]; discriminate.
  - destruct (all_some (map (cvalue V ins acc) ss)) as [vs|] eqn:E; [|discriminate].
    destruct (IH _ _ H) as (new & -> & L & N). exists (sem o vs :: new). rewrite <- app_assoc. split; [reflexivity|].
    split; [simpl; congruence|]. intros [|k] o' ss' Hk; simpl in Hk.
    + injection Hk as <- <-. exists vs. simpl. rewrite app_nil_r. auto.
    + destruct (N k o' ss' Hk) as (vals & E1 & E2). exists vals. simpl. rewrite <- app_assoc in E1. auto.
Qed.

Lemma hget_app : forall (A : Type) (a b : list (name * A)) w, hget (a ++ b) w = match hget a w with Some v => Some v | None => hget b w end.
Proof.
  induction a as [|[k v] a IH]; intros b w; simpl; [reflexivity|]. rewrite !hget_cons. destruct (name_eqb k w); auto.
Qed.
Lemma firstn_In' : forall (A : Type) n (l : list A) x, In x (firstn n l) -> In x l.
Proof. intros A n l x H. rewrite <- (firstn_skipn n l). apply in_app_iff. auto. Qed.

Lemma NoDup_app_l : forall (A : Type) (a b : list A), NoDup (a ++ b) -> NoDup a.
Proof.
  induction a as [|x a IH]; intros b H; [constructor|]. inversion H; subst. constructor; [|eauto].
  intro Hx. apply H2. apply in_app_iff. auto.
Qed.
Lemma NoDup_app_r : forall (A : Type) (a b : list A), NoDup (a ++ b) -> NoDup b.
Proof. induction a as [|x a IH]; intros b H; [assumption|]. inversion H; subst. auto. Qed.

Definition arities (cs : list named_chunk) : list nat :=
  flat_map (fun c => map (fun n => length (snd n)) (b_nodes op (c_body op c))) cs.

Lemma add_chunks_ok : forall ins cs e e' st re log store arity,
  ok st re log -> agrees ins store e re -> nodes_ok ins store (connected st re log) (st_ops op st) arity ->
  run_chunks op V sem cs e = Some e' ->
  (forall c, In c cs -> NoDup (c_ins op c) /\ length (c_outs op c) = length (b_outs op (c_body op c))) ->
  NoDup (flat_map (c_outs op) cs) -> (forall c w, In c cs -> In w (c_outs op c) -> hget e w = None) ->
  exists st' re' log' store', add_chunks op iter cs st = Some st' /\ ok st' re' log' /\ agrees ins store' e' re' /\
    st_ops op st' = st_ops op st ++ flat_map (fun c => map fst (b_nodes op (c_body op c))) cs /\
    nodes_ok ins store' (connected st' re' log') (st_ops op st') (arity ++ arities cs).
Proof.
  intros ins cs. induction cs as [|c cs IH]; intros e e' st re log store arity I Ag Nk Hrun Hc ND Hf.
  - simpl in Hrun. injection Hrun as <-. exists st, re, log, store. simpl. unfold arities. simpl. rewrite !app_nil_r.
    split; [reflexivity|]. auto.
  - cbn [run_chunks] in Hrun. destruct (all_some (map (get V e) (c_ins op c))) as [vs|] eqn:Ev; [|discriminate].
    destruct (run_body op V sem (c_body op c) vs) as [outs|] eqn:Eb; [|discriminate].
    unfold run_body in Eb. destruct (run_nodes op V sem vs [] (b_nodes op (c_body op c))) as [acc|] eqn:En; [|discriminate].
    destruct (run_nodes_ok _ _ _ _ En) as (new & Ea & Ln & Hn). simpl in Ea. subst acc.
    apply all_some_map in Ev. destruct Ev as [Lv Hv]. apply all_some_map in Eb. destruct Eb as [Lo Hob].
    destruct (Hc c (or_introl eq_refl)) as [NDi Lc].
    simpl in ND. pose proof (NoDup_app_r _ _ _ ND) as ND2. pose proof (NoDup_app_l _ _ _ ND) as ND1.
    assert (Rng : forall i acc v, cvalue V vs acc (FromIn i) = Some v -> i < length (c_ins op c)).
    { intros i a v Hcv. simpl in Hcv. rewrite <- Lv. apply nth_error_Some. congruence. }
    assert (G : good_chunk c).
    { split; try assumption.
      - intros k o ss i Hk Hi. destruct (Hn k o ss Hk) as (vals & Ev & _). apply all_some_map in Ev. destruct Ev as [L1 H1].
        apply In_nth_error in Hi. destruct Hi as (p & Hp). assert (p < length vals) as Lp by (rewrite L1; apply nth_error_Some; congruence).
        apply nth_error_Some in Lp. destruct (nth_error vals p) as [v|] eqn:Evp; [|congruence]. apply H1 in Evp. destruct Evp as (x & Hx & Hcv).
        rewrite Hp in Hx. injection Hx as <-. eapply Rng. exact Hcv.
      - intros i Hi. apply In_nth_error in Hi. destruct Hi as (p & Hp). assert (p < length outs) as Lp by (rewrite Lo; apply nth_error_Some; congruence).
        apply nth_error_Some in Lp. destruct (nth_error outs p) as [v|] eqn:Evp; [|congruence]. apply Hob in Evp. destruct Evp as (x & Hx & Hcv).
        rewrite Hp in Hx. injection Hx as <-. eapply Rng. exact Hcv.
      - intros En0 k p Hi. rewrite En0 in Ln. destruct new; [|discriminate].
        apply In_nth_error in Hi. destruct Hi as (q & Hq). assert (q < length outs) as Lp by (rewrite Lo; apply nth_error_Some; congruence).
        apply nth_error_Some in Lp. destruct (nth_error outs q) as [v|] eqn:Evp; [|congruence]. apply Hob in Evp. destruct Evp as (x & Hx & Hcv).
        rewrite Hq in Hx. injection Hx as <-. simpl in Hcv. destruct k; discriminate. }
    assert (Hin : forall w, In w (c_ins op c) -> re w <> None).
    { intros w Hw. apply In_nth_error in Hw. destruct Hw as (i & Hi). assert (i < length vs) as Li by (rewrite Lv; apply nth_error_Some; congruence).
      apply nth_error_Some in Li. destruct (nth_error vs i) as [v|] eqn:Evi; [|congruence]. apply Hv in Evi. destruct Evi as (x & Hx & Hg).
      rewrite Hi in Hx. injection Hx as <-. specialize (Ag w). unfold hget in Ag. unfold get in Hg. rewrite Hg in Ag. destruct Ag as (s & -> & _). discriminate. }
    assert (Hout : forall w, In w (c_outs op c) -> re w = None).
    { intros w Hw. specialize (Ag w). rewrite (Hf c w (or_introl eq_refl) Hw) in Ag. assumption. }
    destruct (add_chunk_ok st re log c I G Hin Hout) as (st1 & re1 & log1 & E1 & I1 & Ops & R1 & R2 & K1 & _ & K2).
    destruct Nk as (La & Ls & Hk).
    set (base := length (st_ops op st)) in *.
    (* values of chunk sources *)
    assert (CS : forall acc x v, (exists m, acc = firstn m new) -> cvalue V vs acc x = Some v ->
       exists s, chunk_src base c re x = Some s /\ value V ins (store ++ new) s = Some v /\
         match x with FromIn _ => below base s | FromNode k _ => s = SOut (base + k) (match x with FromNode _ p => p | _ => 0 end) /\ k < length acc end).
    { intros acc x v (m & ->) Hcv. destruct x as [i|k p]; simpl in *.
      - apply Hv in Hcv. destruct Hcv as (w & Hw & Hg). rewrite Hw. specialize (Ag w). unfold hget in Ag. unfold get in Hg. rewrite Hg in Ag.
        destruct Ag as (s & Hs & Hval). exists s. split; [assumption|]. split; [apply value_app; assumption|].
        rewrite <- Ls. eapply value_below. exact Hval.
      - destruct (nth_error (firstn m new) k) as [os|] eqn:Ek; [|discriminate]. eexists. split; [reflexivity|].
        assert (k < length (firstn m new)) by (apply nth_error_Some; congruence).
        split; [|split; [reflexivity|assumption]]. simpl. rewrite <- Ls.
        rewrite nth_error_app2 by lia. replace (length store + k - length store) with k by lia.
        rewrite <- (firstn_skipn m new) at 1. rewrite nth_error_app1 by assumption. rewrite Ek. assumption. }
    assert (Ag1 : agrees ins (store ++ new) (combine (c_outs op c) outs ++ e) re1).
    { intro w. rewrite hget_app. assert (Lco : length (c_outs op c) = length outs) by congruence.
      destruct (hget (combine (c_outs op c) outs) w) as [v|] eqn:Ew.
      - apply hget_In, combine_nth in Ew. destruct Ew as (i & H1 & H2). apply Hob in H2. destruct H2 as (x & Hx & Hcv).
        destruct (CS new x v (ex_intro _ (length new) (eq_sym (firstn_all _))) Hcv) as (s & Hs & Hval & _).
        exists s. split; [|assumption]. rewrite (R1 i w x H1 Hx). assumption.
      - apply hget_None in Ew. rewrite map_fst_comb in Ew by assumption. specialize (Ag w).
        destruct (hget e w) as [v|]; [|rewrite R2 by assumption; assumption].
        destruct Ag as (s & Hs & Hval). exists s. rewrite R2 by assumption. split; [assumption|]. apply value_app; assumption. }
    assert (Nk1 : nodes_ok ins (store ++ new) (connected st1 re1 log1) (st_ops op st1)
              (arity ++ map (fun n => length (snd n)) (b_nodes op (c_body op c)))).
    { rewrite Ops. split; [rewrite !app_length, !map_length; fold base; lia|]. split; [rewrite !app_length, map_length; fold base; lia|].
      intros n o a Ho Ha. destruct (Nat.lt_ge_cases n base) as [Hlt|Hge].
      - rewrite nth_error_app1 in Ho by assumption. rewrite nth_error_app1 in Ha by lia.
        destruct (Hk n o a Ho Ha) as (vals & L1 & S1 & P1). exists vals. split; [assumption|]. split.
        { rewrite nth_error_app1 by (apply nth_error_Some; congruence). assumption. }
        intros p v Hp. destruct (P1 p v Hp) as (s & C1 & V1 & B1). exists s. split; [|split; [apply value_app; assumption|assumption]].
        intro s'. rewrite K1 by assumption. apply C1.
      - rewrite nth_error_app2 in Ho by assumption. rewrite nth_error_app2 in Ha by lia.
        rewrite La in Ha. fold base in Ho, Ha. set (k := n - base) in *. rewrite nth_error_map in Ho, Ha.
        destruct (nth_error (b_nodes op (c_body op c)) k) as [[o' ss]|] eqn:Ek; [|discriminate]. simpl in Ho, Ha. injection Ho as <-. injection Ha as <-.
        destruct (Hn k o' ss Ek) as (vals & Evals & Enew). apply all_some_map in Evals. destruct Evals as [L1 H1]. simpl in H1.
        assert (Elen : length (firstn k new) = k).
        { apply firstn_length_le. rewrite Ln. apply Nat.lt_le_incl, nth_error_Some. congruence. }
        exists vals. split; [exact L1|]. split.
        { rewrite nth_error_app2 by lia. rewrite Ls. fold k. exact Enew. }
        intros p v Hp. apply H1 in Hp. destruct Hp as (x & Hx & Hcv).
        destruct (CS (firstn k new) x v (ex_intro _ k eq_refl) Hcv) as (s & Hs & Hval & Hb). exists s. split.
        { intro s'. replace n with (base + k) by (unfold k; lia). rewrite (K2 k o' ss p x s' Ek Hx). rewrite Hs. split; [congruence|intros ->; reflexivity]. }
        split; [exact Hval|]. destruct x as [i|k' p']; simpl in Hb.
        { destruct s; simpl in *; [exact Logic.I|]. lia. }
        { destruct Hb as [-> Hb]. simpl. rewrite Elen in Hb. unfold k in Hb. lia. } }
    destruct (IH (combine (c_outs op c) outs ++ e) e' st1 re1 log1 (store ++ new) _ I1 Ag1 Nk1) as (st' & re' & log' & store' & E' & I' & Ag' & Ops' & Nk').
    + exact Hrun.
    + intros c' Hc'. apply Hc. right; assumption.
    + exact ND2.
    + intros c' w Hc' Hw. rewrite hget_app. destruct (hget (combine (c_outs op c) outs) w) as [v|] eqn:Ew.
      * exfalso. apply hget_In, in_combine_l in Ew.
        assert (In w (flat_map (c_outs op) cs)) by (apply in_flat_map; eauto).
        clear -ND Ew H. induction (c_outs op c) as [|y l IHl]; [destruct Ew|]. simpl in ND. inversion ND; subst.
        destruct Ew as [->|Ew]; [apply H2; apply in_app_iff; auto|auto].
      * apply (Hf c' w); [right; assumption|assumption].
    + exists st', re', log', store'. split; [simpl; rewrite E1; exact E'|]. split; [exact I'|]. split; [exact Ag'|]. split.
      * rewrite Ops', Ops, <- app_assoc. reflexivity.
      * unfold arities in *. cbn [flat_map]. rewrite app_assoc. exact Nk'.
Qed.

Lemma initial_sources : forall (l : list (nat * name)) m, NoDup (map snd l) -> (forall w, In w (map snd l) -> ~ In w (map fst m)) ->
  NoDup (map fst m) ->
  let r := fold_left (fun m iw => hinsert (snd iw) (SIn (fst iw)) m) l m in
  NoDup (map fst r) /\ forall w, hget r w = match hget m w with Some s => Some s | None =>
    match find (fun x => name_eqb (snd x) w) l with Some (i, _) => Some (SIn i) | None => None end end.
Proof.
  induction l as [|[i w0] l IH]; intros m ND Hd Nm; cbv zeta; simpl.
  - split; [assumption|]. intro w. destruct (hget m w); reflexivity.
  - simpl in ND. inversion ND as [|? ? Hn ND']; subst.
    destruct (IH (hinsert w0 (SIn i) m) ND') as [H1 H2].
    + intros w Hw H. rewrite hinsert_fresh in H by (apply Hd; left; reflexivity). simpl in H. destruct H as [->|H]; [contradiction|].
      apply (Hd w); [right; assumption|assumption].
    + apply hinsert_keys. assumption.
    + split; [exact H1|]. intro w. rewrite H2, hget_insert. destruct (name_eqb w0 w) eqn:E; [|reflexivity].
      apply name_eqb_eq in E. subst. rewrite (proj2 (hget_None _ m w)) by (apply Hd; left; reflexivity). reflexivity.
Qed.

Lemma find_indexed : forall (l : list name) s w, NoDup l ->
  match find (fun x => name_eqb (snd x) w) (combine (seq s (length l)) l) with
  | Some (i, _) => s <= i /\ nth_error l (i - s) = Some w
  | None => ~ In w l
  end.
Proof.
  induction l as [|x l IH]; intros s w ND; simpl; [auto|]. inversion ND; subst. destruct (name_eqb x w) eqn:E.
  - apply name_eqb_eq in E. subst. rewrite Nat.sub_diag. auto.
  - apply name_eqb_neq in E. specialize (IH (S s) w H2).
    destruct (find (fun y => name_eqb (snd y) w) (combine (seq (S s) (length l)) l)) as [[i ?]|].
    + destruct IH as [L H]. split; [lia|]. replace (i - s) with (S (i - S s)) by lia. exact H.
    + intros [->|H]; auto.
Qed.

Lemma add_outputs_ok : forall tr (l : list (nat * name)) tg m x,
  In x (tget (fold_left (fun tg iw => push_target (merged tr (snd iw)) (TOut (fst iw)) tg) l tg) m) <->
  In x (tget tg m) \/ exists i w, In (i, w) l /\ x = TOut i /\ m = merged tr w.
Proof.
  induction l as [|[i w] l IH]; intros tg m x; simpl.
  - split; [auto|]. intros [H|(i & w & [] & _)]. assumption.
  - rewrite IH, push_ok. simpl. split.
    + intros [[H|[-> ->]]|(i' & w' & H & H')]; auto; right; [exists i, w; auto|exists i', w'; tauto].
    + intros [H|(i' & w' & [E|H] & -> & ->)]; auto; [injection E as -> ->; auto|right; eauto].
Qed.

(** The edges of the final graph. *)
Lemma final_edges : forall st re log outn, ok st re log -> forall s t,
  In (s, t) (st_edges op st ++ flat_map (fun ws => match hget (add_outputs op st outn) (fst ws) with
                                    | Some ts => map (fun t => (snd ws, t)) ts
                                    | None => [] end) (iter _ (sources op st))) <->
  In (s, t) (st_edges op st) \/ exists w, (log t w \/ exists i, t = TOut i /\ nth_error outn i = Some w) /\ re w = Some s.
Proof.
  intros st re log outn I.
    set (tg := add_outputs op st outn).
    assert (Tg : forall m t, In t (tget tg m) <-> exists w, (log t w \/ exists i, t = TOut i /\ nth_error outn i = Some w) /\ m = merged (transitive op st) w).
    { intros m t. unfold tg, add_outputs. rewrite add_outputs_ok, (ok_targets _ _ _ I). split.
      - intros [(w & H & ->)|(i & w & H & -> & ->)]; exists w; (split; [|reflexivity]); [auto|]. right. apply indexed_In in H. eauto.
      - intros (w & [H|(i & -> & H)] & ->); [left; eauto|right]. exists i, w. split; [apply indexed_In; assumption|auto]. }
    fold tg.
    intros s t. rewrite in_app_iff. apply or_iff_compat_l. rewrite in_flat_map. split.
      - intros ([m s'] & H1 & H2). apply (Permutation_in _ (iter_perm _ _)) in H1. simpl in H2.
        destruct (hget tg m) as [ts|] eqn:Et; [|destruct H2]. apply in_map_iff in H2. destruct H2 as (t' & E2 & H2). injection E2 as -> ->.
        assert (Ht : In t (tget tg m)) by (unfold tget; rewrite Et; assumption). apply Tg in Ht. destruct Ht as (w & Hw & ->).
        exists w. split; [assumption|]. apply (In_hget _ _ _ _ (ok_keys _ _ _ I)) in H1.
        destruct (re w) as [s''|] eqn:Ew.
        + rewrite (n_known _ _ _ (ok_named _ _ _ I) w s'' Ew) in H1. congruence.
        + destruct (n_new _ _ _ (ok_named _ _ _ I) w Ew) as [N1 N2]. unfold merged in H1. rewrite N2, N1 in H1. discriminate.
      - intros (w & Hw & Hs). exists (merged (transitive op st) w, s). split.
        + eapply Permutation_in; [apply Permutation_sym, iter_perm|]. apply hget_In. apply (n_known _ _ _ (ok_named _ _ _ I)). assumption.
        + simpl. assert (Ht : In t (tget tg (merged (transitive op st) w))) by (apply Tg; eauto). unfold tget in Ht.
          destruct (hget tg (merged (transitive op st) w)); [|destruct Ht]. apply in_map. assumption.
Qed.

(** Chunks run one after the other and the reassembled graph compute the same. *)
Lemma reassemble_ok : forall (in_names out_names : list name) cs ins e' outs,
  NoDup (in_names ++ flat_map (c_outs op) cs) -> length ins = length in_names ->
  (forall c, In c cs -> NoDup (c_ins op c) /\ length (c_outs op c) = length (b_outs op (c_body op c))) ->
  run_chunks op V sem cs (combine in_names ins) = Some e' -> all_some (map (get V e') out_names) = Some outs ->
  exists g, reassemble op iter in_names out_names cs = Some g /\
    g_ops op g = flat_map (fun c => map fst (b_nodes op (c_body op c))) cs /\
    computes op V sem g (arities cs) ins outs.
Proof.
  intros inn outn cs ins e' outs ND Li Hc Hrun Hout.
  pose proof (NoDup_app_r _ _ _ ND) as ND2. pose proof (NoDup_app_l _ _ _ ND) as ND1.
  set (st0 := initial op inn). set (re0 := fun w => hget (sources op st0) w).
  destruct (initial_sources (indexed inn) []) as [NS0 HS0].
  { rewrite map_snd_indexed. assumption. } { intros; intros []. } { constructor. }
  assert (Re0 : forall w, match re0 w with Some s => exists i, s = SIn i /\ nth_error inn i = Some w | None => ~ In w inn end).
  { intro w. unfold re0, st0, initial. cbn [sources]. rewrite HS0. simpl.
    pose proof (find_indexed inn 0 w ND1) as F. unfold indexed. destruct (find _ _) as [[i ?]|]; [|exact F].
    exists i. rewrite Nat.sub_0_r in F. tauto. }
  destruct (add_chunks_ok ins cs (combine inn ins) e' st0 re0 (fun _ _ => False) [] []) as (st & re & log & store & E & I & Ag & Ops & Nk).
  - split.
    + split; [intros w s Hs; exact Hs|]. intros w Hw. split; [exact Hw|reflexivity].
    + exact NS0.
    + intros t w [].
    + intros s t [].
    + intros m t. split; [intros []|intros (w & [] & _)].
  - intro w. destruct (hget (combine inn ins) w) as [v|] eqn:Ew.
    + apply hget_In, combine_nth in Ew. destruct Ew as (i & H1 & H2). specialize (Re0 w).
      destruct (re0 w) as [s|]; [|exfalso; apply Re0; eapply nth_error_In; exact H1].
      destruct Re0 as (j & -> & Hj). exists (SIn j). split; [reflexivity|]. simpl.
      assert (i = j) by (eapply NoDup_nth_error; [exact ND1|apply nth_error_Some; congruence|congruence]). subst. assumption.
    + apply hget_None in Ew. rewrite map_fst_comb in Ew by (symmetry; assumption). specialize (Re0 w). destruct (re0 w) as [s|]; [|reflexivity].
      destruct Re0 as (j & _ & Hj). apply nth_error_In in Hj. contradiction.
  - split; [reflexivity|]. split; [reflexivity|]. intros [|n]; discriminate.
  - exact Hrun.
  - exact Hc.
  - exact ND2.
  - intros c w Hcin Hw. apply hget_None. rewrite map_fst_comb by (symmetry; assumption). intro H.
    assert (In w (flat_map (c_outs op) cs)) by (apply in_flat_map; eauto).
    clear -ND H H0. induction inn as [|y l IHl]; [destruct H|]. simpl in ND. inversion ND; subst.
    destruct H as [->|H]; [apply H3; apply in_app_iff; auto|auto].
  - unfold reassemble. fold st0. rewrite E. eexists. split; [reflexivity|]. cbn [g_ops]. split; [rewrite Ops; reflexivity|].
    set (edges := st_edges op st ++ _).
    pose proof (final_edges st re log outn I) as Ed. fold edges in Ed.
    destruct Nk as (La & Ls & Hk). simpl in La, Hk. unfold computes. cbn [g_ops g_edges]. fold edges. split; [exact La|].
    exists store. split; [exact Ls|]. split.
    + intros n o a Ho Ha. destruct (Hk n o a Ho Ha) as (vals & L1 & S1 & P1). exists vals. split; [assumption|]. split; [assumption|].
      intros p v Hp. destruct (P1 p v Hp) as (s & C1 & V1 & B1). exists s. split; [|split; [exact V1|exact B1]].
      intro s'. rewrite Ed, <- C1. unfold connected. apply or_iff_compat_l. split.
      * intros (w & [H|(i & H & _)] & Hs); [eauto|discriminate].
      * intros (w & H & Hs). eauto.
    + intros p v Hp. apply all_some_map in Hout. destruct Hout as [_ Hout]. apply Hout in Hp. destruct Hp as (w & Hw & Hg).
      specialize (Ag w). unfold hget in Ag. unfold get in Hg. rewrite Hg in Ag. destruct Ag as (s & Hs & Hval). exists s. split; [|exact Hval].
      intro s'. rewrite Ed. split.
      * intros [H|(w' & [H|(i & Ei & H)] & Hs')].
        { destruct (ok_edges _ _ _ I _ _ H) as (n & q & Eq & _). discriminate. }
        { destruct (ok_log _ _ _ I _ _ H) as (_ & n & q & Eq & _). discriminate. }
        { injection Ei as <-. congruence. }
      * intros ->. right. exists w. split; [right; eauto|assumption].
Qed.
End Reassemble.
