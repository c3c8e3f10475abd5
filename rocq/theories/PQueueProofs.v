(** Lemmas on the priority queue model. *)
From Coq Require Import List Bool Arith Lia Permutation.
From Verif Require Import PQueueSpec PQueueModel.
Import ListNotations.

Set Implicit Arguments.

(** ** Association lists *)

Section Assoc.
Variable V : Type.
Implicit Types (l : list (nat * V)) (h : nat).

Lemma assoc_In : forall l h v, assoc h l = Some v -> In (h, v) l.
Proof.
  induction l as [|[k w] l IH]; simpl; intros h v E; [discriminate|].
  destruct (Nat.eqb_spec k h); [injection E as ->; subst; auto | right; auto].
Qed.
Lemma assoc_None : forall l h, assoc h l = None <-> ~ In h (map fst l).
Proof.
  induction l as [|[k w] l IH]; simpl; intros h; [tauto|].
  destruct (Nat.eqb_spec k h); [split; [discriminate | tauto]|].
  rewrite IH. split; tauto.
Qed.
Lemma In_assoc : forall l h v, NoDup (map fst l) -> In (h, v) l -> assoc h l = Some v.
Proof.
  induction l as [|[k w] l IH]; simpl; intros h v N I; [destruct I|].
  inversion N; subst. destruct I as [E|I].
  - injection E as -> ->. rewrite Nat.eqb_refl; reflexivity.
  - destruct (Nat.eqb_spec k h); [|auto]. subst. exfalso. apply H1. apply (in_map fst) in I; exact I.
Qed.
Lemma assoc_remove : forall l h k, assoc h (remove_key k l) = if Nat.eqb k h then None else assoc h l.
Proof.
  induction l as [|[j w] l IH]; simpl; intros h k; [destruct (Nat.eqb k h); reflexivity|].
  destruct (Nat.eqb_spec j k); simpl.
  - rewrite IH. subst. destruct (Nat.eqb_spec k h); reflexivity.
  - destruct (Nat.eqb_spec j h).
    + subst. destruct (Nat.eqb_spec k h); [congruence|reflexivity].
    + apply IH.
Qed.
Lemma assoc_app_new : forall l h v, ~ In h (map fst l) -> assoc h (l ++ [(h, v)]) = Some v.
Proof.
  induction l as [|[j w] l IH]; simpl; intros h v N; [rewrite Nat.eqb_refl; reflexivity|].
  destruct (Nat.eqb_spec j h); [tauto|]. auto.
Qed.
Lemma remove_key_notin : forall l h, ~ In h (map fst l) -> remove_key h l = l.
Proof.
  induction l as [|[j w] l IH]; simpl; intros h N; [reflexivity|].
  destruct (Nat.eqb_spec j h); [tauto|]. simpl. rewrite IH; tauto.
Qed.
Lemma remove_key_incl : forall l h e, In e (remove_key h l) -> In e l /\ fst e <> h.
Proof.
  intros l h e I. apply filter_In in I. destruct I as [I E]. split; [assumption|].
  apply negb_true_iff, Nat.eqb_neq in E. exact E.
Qed.
Lemma remove_key_In : forall l h e, In e l -> fst e <> h -> In e (remove_key h l).
Proof.
  intros l h e I E. apply filter_In. split; [assumption|]. apply negb_true_iff, Nat.eqb_neq; exact E.
Qed.
Lemma remove_key_perm : forall l e, NoDup (map fst l) -> In e l -> Permutation l (e :: remove_key (fst e) l).
Proof.
  induction l as [|[j w] l IH]; simpl; intros e N I; [destruct I|].
  inversion N; subst. destruct I as [<-|I].
  - simpl. rewrite Nat.eqb_refl. simpl. rewrite remove_key_notin; auto.
  - destruct (Nat.eqb_spec j (fst e)).
    + exfalso. subst. apply H1. apply in_map; assumption.
    + simpl. rewrite perm_swap. constructor. auto.
Qed.
Lemma remove_key_NoDup : forall l h, NoDup (map fst l) -> NoDup (map fst (remove_key h l)).
Proof.
  induction l as [|[j w] l IH]; simpl; intros h N; [constructor|].
  inversion N; subst. destruct (Nat.eqb_spec j h); simpl; [auto|].
  constructor; auto. intro I. apply H1. apply in_map_iff in I. destruct I as (e & E & I).
  apply remove_key_incl in I. rewrite <- E. apply in_map; tauto.
Qed.
End Assoc.

(** ** Picking an extreme entry *)

Section Pick.
Variables (P : Type) (better : P -> P -> bool).
Hypothesis SW : strict_weak better.

Lemma sw_irrefl : forall a, better a a = false.
Proof. intro a. destruct (better a a) eqn:E; [|reflexivity]. rewrite <- E. apply (sw_asym SW _ _ E). Qed.

Lemma sw_trans : forall a b c, better a b = true -> better b c = true -> better a c = true.
Proof.
  intros a b c A B. destruct (better a c) eqn:E; [reflexivity|].
  pose proof (sw_negtrans SW _ _ _ E (sw_asym SW _ _ B)). congruence.
Qed.

Lemma exists_extreme : forall l : list (nat * P), l <> [] ->
  exists e, In e l /\ forall e', In e' l -> better (snd e') (snd e) = false.
Proof.
  induction l as [|x l IH]; intro N; [congruence|]. destruct l as [|y l].
  - exists x; split; [left; reflexivity|]. intros e' [<-|[]]. apply sw_irrefl.
  - destruct IH as (e & I & M); [discriminate|].
    destruct (better (snd x) (snd e)) eqn:E.
    + exists x; split; [left; reflexivity|]. intros e' [<-|I']; [apply sw_irrefl|].
      apply (sw_negtrans SW) with (b := snd e); [apply M; assumption | apply (sw_asym SW); assumption].
    + exists e; split; [right; assumption|]. intros e' [<-|I']; auto.
Qed.

Lemma candidates_spec : forall l e, In e (candidates better l) <->
  In e l /\ forall e', In e' l -> better (snd e') (snd e) = false.
Proof.
  intros l e. unfold candidates. rewrite filter_In, forallb_forall.
  split; intros [I M]; split; auto; intros e' I'; specialize (M e' I');
    [apply negb_true_iff in M | apply negb_true_iff]; assumption.
Qed.

Lemma pick_spec : forall t l e, pick better t l = Some e ->
  In e l /\ forall e', In e' l -> better (snd e') (snd e) = false.
Proof. intros t l e E. apply candidates_spec. eapply nth_error_In, E. Qed.

Lemma pick_total : forall t l, l <> [] -> exists e, pick better t l = Some e.
Proof.
  intros t l N. destruct (exists_extreme N) as (e & I).
  apply candidates_spec in I. unfold pick.
  destruct (nth_error (candidates better l) (t mod length (candidates better l))) eqn:E; [eauto|].
  apply nth_error_None in E. destruct (candidates better l) as [|c cs]; [destruct I|].
  pose proof (Nat.mod_upper_bound t (length (c :: cs))). simpl in *. lia.
Qed.

Lemma pick_none : forall t l, pick better t l = None -> l = [].
Proof.
  intros t l E. destruct l as [|x l]; [reflexivity|].
  destruct (pick_total t (l := x :: l)) as (e & E'); [discriminate|congruence].
Qed.

Lemma dpq_pop_none : forall t l, dpq_pop better t l = None -> l = [].
Proof. unfold dpq_pop. intros t l E. apply (pick_none t). destruct (pick better t l); congruence. Qed.

Lemma dpq_pop_some : forall t l e r, dpq_pop better t l = Some (e, r) ->
  In e l /\ (forall e', In e' l -> better (snd e') (snd e) = false) /\ r = remove_key (fst e) l.
Proof.
  unfold dpq_pop. intros t l e r E. destruct (pick better t l) eqn:Ep; [|discriminate].
  injection E as <- <-. apply pick_spec in Ep. tauto.
Qed.
End Pick.

Lemma gtb_sw : forall P (ltb : P -> P -> bool), strict_weak ltb -> strict_weak (gtb ltb).
Proof.
  intros P ltb SW. split; unfold gtb; intros.
  - apply (sw_asym SW); assumption.
  - eapply (sw_negtrans SW); eassumption.
Qed.

(** ** The queue *)

Section Queue.
Variables (S P : Type) (ltb : P -> P -> bool).
Hypothesis SW : strict_weak ltb.
Let SWg := gtb_sw SW.
Notation pq := (pq S P).
Notation entry := (entry S P).

Lemma least_max : forall (t : nat) (l : list (nat * P)) e, pick (gtb ltb) t l = Some e ->
  In e l /\ forall x, In x l -> ltb (snd e) (snd x) = false.
Proof. intros t l e E. apply (pick_spec _ _ _ E). Qed.

(** The entries of a list of hashes and costs. *)
Definition has (lk : list (nat * S)) (acc : list entry) (l : list (nat * P)) : Prop :=
  forall h c, In (h, c) l -> exists s, assoc h lk = Some s /\ In (h, c, s) acc.

(** The invariant: [acc] lists what has been accepted so far. *)
Record inv (q : pq) (acc : list entry) : Prop := {
  i_nodup : NoDup (map fst (queue q));
  i_size : length (queue q) <= max_size q;
  i_seen : forall h, In h (seen q) <-> In h (map ehash acc);
  i_acc : NoDup (map ehash acc);
  i_lookup : forall h s, assoc h (lookup q) = Some s -> exists c, In (h, c, s) acc;
  i_has : has (lookup q) acc (queue q);
  i_atb : forall n b, atb q = Some (n, b) ->
    NoDup (map fst b) /\ has (lookup q) acc b /\ length b = min n (length acc) /\
    forall e x, In e acc -> ~ In (ehash e) (map fst b) -> In x b -> ltb (ecost e) (snd x) = false
}.

Definition ents (q : pq) : list entry :=
  flat_map (fun e => match assoc (fst e) (lookup q) with Some s => [(fst e, snd e, s)] | None => [] end) (queue q).

Lemma ents_ext : forall (lk lk' : list (nat * S)) (l : list (nat * P)),
  (forall h c, In (h, c) l -> assoc h lk = assoc h lk') ->
  flat_map (fun e => match assoc (fst e) lk with Some s => [(fst e, snd e, s)] | None => [] end) l =
  flat_map (fun e => match assoc (fst e) lk' with Some s => [(fst e, snd e, s)] | None => [] end) l.
Proof.
  induction l as [|[h c] l IH]; simpl; intro E; [reflexivity|].
  rewrite (E h c) by auto. rewrite IH; [reflexivity|]. intros; apply (E h0 c0); auto.
Qed.

Lemma Permutation_flat_map' : forall A B (f : A -> list B) l l',
  Permutation l l' -> Permutation (flat_map f l) (flat_map f l').
Proof. intros. apply Permutation_flat_map; assumption. Qed.

Lemma ents_length : forall q acc, inv q acc -> length (ents q) = length (queue q).
Proof.
  intros q acc I. unfold ents. generalize (i_has I).
  induction (queue q) as [|[h c] l IH]; intro Hh; simpl; [reflexivity|].
  destruct (Hh h c) as (s & E & _); [left; reflexivity|]. rewrite E. simpl. f_equal. apply IH.
  intros h' c' I'. apply Hh. right; assumption.
Qed.

Lemma ents_queue : forall q acc, inv q acc -> map (fun e => (ehash e, ecost e)) (ents q) = queue q.
Proof.
  intros q acc I. unfold ents. generalize (i_has I).
  induction (queue q) as [|[h c] l IH]; intro Hh; simpl; [reflexivity|].
  destruct (Hh h c) as (s & E & _); [left; reflexivity|]. rewrite E. simpl. unfold ehash at 1, ecost at 1. simpl. f_equal. apply IH.
  intros h' c' I'. apply Hh. right; assumption.
Qed.

Lemma ents_In : forall q acc e, inv q acc -> In e (ents q) -> In (ehash e, ecost e) (queue q) /\ In e acc.
Proof.
  intros q acc e I Hin. unfold ents in Hin. apply in_flat_map in Hin. destruct Hin as ([h c] & Hq & Hi).
  simpl in Hi. destruct (i_has I h c Hq) as (s & E & Ha). rewrite E in Hi. destruct Hi as [<-|[]].
  split; assumption.
Qed.

Lemma In_ents : forall q acc h c, inv q acc -> In (h, c) (queue q) ->
  exists s, assoc h (lookup q) = Some s /\ In (h, c, s) (ents q).
Proof.
  intros q acc h c I Hq. destruct (i_has I h c Hq) as (s & E & _). exists s; split; [assumption|].
  apply in_flat_map. exists (h, c); split; [assumption|]. simpl. rewrite E. left; reflexivity.
Qed.

Lemma acc_unique : forall (acc : list entry) e e', NoDup (map ehash acc) -> In e acc -> In e' acc -> ehash e = ehash e' -> e = e'.
Proof.
  induction acc as [|a acc IH]; simpl; intros e e' N I I' E; [destruct I|].
  inversion N; subst. destruct I as [<-|I], I' as [<-|I']; auto.
  - exfalso; apply H1. rewrite E. apply in_map; assumption.
  - exfalso; apply H1. rewrite <- E. apply in_map; assumption.
Qed.

(** Popping by any order keeps the invariant. *)
Lemma pop_by_ok : forall better q acc, strict_weak better -> inv q acc ->
  (queue q = [] /\ pop_by better q = (q, None)) \/
  (exists q' e, pop_by better q = (q', Some e) /\ inv q' acc /\ In e (ents q) /\
     (forall x, In x (ents q) -> better (ecost x) (ecost e) = false) /\
     Permutation (ents q) (e :: ents q') /\ seen q' = seen q /\ max_size q' = max_size q /\
     atb q' = atb q /\ (forall h c, In (h, c) (queue q') -> h <> ehash e) /\
     length (queue q) = Datatypes.S (length (queue q')) /\
     (forall h, h <> ehash e -> assoc h (lookup q') = assoc h (lookup q)) /\
     queue q' = remove_key (ehash e) (queue q)).
Proof.
  intros better q acc SWb I. unfold pop_by.
  destruct (dpq_pop better (ties q 0) (queue q)) as [[[h c] rest]|] eqn:Ep.
  2:{ left. split; [eapply dpq_pop_none; eassumption | reflexivity]. }
  right. destruct (dpq_pop_some _ _ _ Ep) as (Hin & Hm & Hr). simpl in Hm, Hr.
  destruct (In_ents h c I Hin) as (s & Es & He).
  assert (Hf : exists lk, fetch q h = (Some s, lk) /\
     (forall k, k <> h -> assoc k lk = assoc k (lookup q)) /\
     (forall k v, assoc k lk = Some v -> assoc k (lookup q) = Some v) /\
     (forall n b, atb q = Some (n, b) -> In h (map fst b) -> assoc h lk = Some s)).
  { unfold fetch. destruct (atb q) as [[n b]|].
    - unfold contains. destruct (assoc h b) eqn:Eb.
      + exists (lookup q). rewrite Es. repeat split; auto.
      + exists (remove_key h (lookup q)). rewrite Es. split; [reflexivity|].
        split; [intros k Hk; rewrite assoc_remove; destruct (Nat.eqb_spec h k); congruence|].
        split; [intros k v; rewrite assoc_remove; destruct (Nat.eqb h k); congruence|].
        intros n' b' E'. injection E' as <- <-. intro Hb. apply assoc_None in Eb. tauto.
    - exists (lookup q). rewrite Es. repeat split; auto; discriminate. }
  destruct Hf as (lk & Ef & Hk & Hs & Ha). rewrite Ef.
  eexists; exists (h, c, s); split; [reflexivity|].
  assert (Hrest : forall h' c', In (h', c') rest -> h' <> h).
  { intros h' c' Hi. subst rest. apply remove_key_incl in Hi. tauto. }
  assert (Hperm : Permutation (queue q) ((h, c) :: rest)).
  { subst rest. apply (remove_key_perm (queue q) (h, c)); [apply (i_nodup I) | assumption]. }
  split.
  { split; simpl.
    - subst rest. apply remove_key_NoDup, (i_nodup I).
    - apply Permutation_length in Hperm. simpl in Hperm. pose proof (i_size I). lia.
    - apply (i_seen I).
    - apply (i_acc I).
    - intros k v E. apply (i_lookup I). auto.
    - intros h' c' Hi. pose proof (Hrest _ _ Hi). subst rest. apply remove_key_incl in Hi.
      destruct (i_has I h' c') as (s' & Es' & Hacc); [tauto|]. exists s'. rewrite Hk by assumption. auto.
    - intros n b E. destruct (i_atb I E) as (N & Hb & L & M). repeat split; auto.
      intros h' c' Hi. destruct (Hb h' c' Hi) as (s' & Es' & Hacc). exists s'. split; [|assumption].
      destruct (Nat.eq_dec h' h) as [->|Hne]; [|rewrite Hk; assumption].
      rewrite (Ha n b E); [congruence|]. apply (in_map fst) in Hi; exact Hi. }
  split; [assumption|].
  split; [intros x Hx; apply (ents_In _ I) in Hx; destruct Hx as [Hx _]; apply (Hm _ Hx)|].
  split.
  { unfold ents at 1. rewrite (Permutation_flat_map' _ Hperm). simpl. rewrite Es. simpl. constructor.
    unfold ents; simpl. rewrite (ents_ext (lookup q) lk); [reflexivity|].
    intros h' c' Hi. symmetry; apply Hk. eapply Hrest; eassumption. }
  repeat split; auto.
  apply Permutation_length in Hperm. exact Hperm.
Qed.

Lemma max_cost_spec : forall (q : pq) m, max_cost ltb q = Some m ->
  (exists h, In (h, m) (queue q)) /\ forall h c, In (h, c) (queue q) -> ltb m c = false.
Proof.
  unfold max_cost. intros q m E. destruct (pick (gtb ltb) 0 (queue q)) as [[h c]|] eqn:Ep; [|discriminate].
  injection E as <-. apply least_max in Ep. destruct Ep as [I M]. split; [eauto|].
  intros h' c' I'. apply (M _ I').
Qed.

Lemma check_accepted_ok : forall q acc c, inv q acc -> exists b, check_accepted ltb q c = Some b /\
  (b = true -> length (queue q) < max_size q \/
     (0 < max_size q /\ length (queue q) = max_size q /\ exists h m, In (h, m) (queue q) /\ ltb c m = true /\
       forall h c, In (h, c) (queue q) -> ltb m c = false)) /\
  (b = false -> length (queue q) = max_size q /\ forall h m, In (h, m) (queue q) -> ltb c m = false).
Proof.
  intros q acc c I. pose proof (i_size I) as Hs. unfold check_accepted.
  destruct (Nat.eqb_spec (max_size q) 0) as [E0|E0].
  - exists false; split; [reflexivity|]. split; [discriminate|]. intros _. split; [lia|].
    destruct (queue q); [simpl; tauto | simpl in Hs; lia].
  - destruct (Nat.ltb_spec (length (queue q)) (max_size q)) as [El|El].
    + exists true; split; [reflexivity|]. split; [auto|discriminate].
    + destruct (max_cost ltb q) as [m|] eqn:Em.
      * destruct (max_cost_spec _ Em) as ((h & Hin) & Hm). exists (ltb c m); split; [reflexivity|].
        split.
        -- intro E. right. split; [lia|]. split; [lia|]. exists h, m. auto.
        -- intro E. split; [lia|]. intros h' m' I'. eapply (sw_negtrans SW); [exact E|]. eapply Hm, I'.
      * exfalso. unfold max_cost in Em. destruct (pick (gtb ltb) 0 (queue q)) as [[? ?]|] eqn:Ep; [discriminate|].
        apply (pick_none SWg) in Ep. rewrite Ep in El. simpl in El. lia.
Qed.

Lemma existsb_seen : forall h l, existsb (Nat.eqb h) l = true <-> In h l.
Proof.
  intros h l. rewrite existsb_exists. split.
  - intros (x & I & E). apply Nat.eqb_eq in E. subst; assumption.
  - intro I. exists h. split; [assumption | apply Nat.eqb_refl].
Qed.

Lemma map_fst_app : forall (A B : Type) (l : list (A * B)) x, map fst (l ++ [x]) = map fst l ++ [fst x].
Proof. intros. rewrite map_app. reflexivity. Qed.

Lemma NoDup_snoc : forall (A : Type) (l : list A) x, NoDup l -> ~ In x l -> NoDup (l ++ [x]).
Proof.
  intros A l x N Hx. apply NoDup_rev in N. rewrite <- (rev_involutive (l ++ [x])). apply NoDup_rev.
  rewrite rev_app_distr. simpl. constructor; [|assumption]. rewrite <- in_rev. assumption.
Qed.

(** The all-time-best update. [q0] is the queue state with the new hash [h] in the queue but
    not yet in the lookup. *)
Record pre_inv (q : pq) (acc : list entry) (h : nat) (c : P) : Prop := {
  p_seen : forall k, In k (seen q) <-> k = h \/ In k (map ehash acc);
  p_new : ~ In h (map ehash acc);
  p_acc : NoDup (map ehash acc);
  p_lookup : forall k s, assoc k (lookup q) = Some s -> exists c, In (k, c, s) acc;
  p_has : has (lookup q) acc (remove_key h (queue q));
  p_queue : In (h, c) (queue q);
  p_nodup : NoDup (map fst (queue q));
  p_atb : forall n b, atb q = Some (n, b) ->
    NoDup (map fst b) /\ has (lookup q) acc b /\ length b = min n (length acc) /\
    forall e x, In e acc -> ~ In (ehash e) (map fst b) -> In x b -> ltb (ecost e) (snd x) = false
}.

Lemma has_keys : forall lk acc l h, has lk acc l -> In h (map fst l) -> In h (map ehash acc).
Proof.
  intros lk acc l h Hh Hi. apply in_map_iff in Hi. destruct Hi as ([k c] & E & Hi). simpl in E; subst k.
  destruct (Hh h c Hi) as (s & _ & Ha). apply (in_map ehash) in Ha. exact Ha.
Qed.

Lemma push_atb_ok : forall q acc h c s, pre_inv q acc h c ->
  exists q', push_atb ltb q h c = q' /\ queue q' = queue q /\ seen q' = seen q /\
    max_size q' = max_size q /\
    (forall k d, In (k, d) (queue q) -> assoc k (lookup q') = assoc k (lookup q)) /\
    (forall k v, assoc k (lookup q') = Some v -> assoc k (lookup q) = Some v) /\
    (atb q = None -> atb q' = None) /\
    (forall n b, atb q' = Some (n, b) ->
      (exists b0, atb q = Some (n, b0)) /\
      NoDup (map fst b) /\ has (or_insert h s (lookup q')) (acc ++ [(h, c, s)]) b /\
      length b = min n (length (acc ++ [(h, c, s)])) /\
      forall e x, In e (acc ++ [(h, c, s)]) -> ~ In (ehash e) (map fst b) -> In x b -> ltb (ecost e) (snd x) = false).
Proof.
  intros q acc h c s I.
  assert (Hnl : forall lk : list (nat * S), (forall k v, assoc k lk = Some v -> assoc k (lookup q) = Some v) -> assoc h lk = None).
  { intros lk Hlk. destruct (assoc h lk) as [v|] eqn:E; [|reflexivity]. exfalso. apply Hlk in E.
    apply (p_lookup I) in E. destruct E as (c' & Hc). apply (p_new I). apply (in_map ehash) in Hc. exact Hc. }
  unfold push_atb. destruct (atb q) as [[n b]|] eqn:Ea.
  2:{ exists q. repeat split; auto; intros; try congruence. }
  destruct (p_atb I Ea) as (N & Hb & L & M).
  assert (Hhb : ~ In h (map fst b)) by (intro X; apply (p_new I); eapply has_keys; eassumption).
  assert (Hins : forall lk : list (nat * S), (forall k v, assoc k lk = Some v -> assoc k (lookup q) = Some v) ->
     assoc h (or_insert h s lk) = Some s /\ forall k, k <> h -> assoc k (or_insert h s lk) = assoc k lk).
  { intros lk Hlk. unfold or_insert. rewrite (Hnl _ Hlk). simpl. rewrite Nat.eqb_refl. split; [reflexivity|].
    intros k Hk. destruct (Nat.eqb_spec h k); congruence. }
  assert (Hlen : length (acc ++ [(h, c, s)]) = Datatypes.S (length acc)) by (rewrite app_length; simpl; lia).
  destruct (Nat.eqb_spec (length b) n) as [En|En].
  - (* full *)
    destruct (pick (gtb ltb) 0 b) as [[hm m]|] eqn:Ep.
    + destruct (ltb c m) eqn:Ec.
      * (* replace the worst *)
        unfold pop_max_atb. rewrite Ea.
        destruct (dpq_pop (gtb ltb) (ties q 0) b) as [[[hw w] rest]|] eqn:Eq.
        2:{ apply (dpq_pop_none SWg) in Eq. subst b. cbn in Ep. discriminate. }
        destruct (dpq_pop_some _ _ _ Eq) as (Hw & Hmax & ->). simpl in Hmax. cbn [fst].
        unfold atb_insert. cbn [atb]. eexists; split; [reflexivity|]. cbn.
        set (lk := if contains hw (queue q) then lookup q else remove_key hw (lookup q)).
        assert (Hlk : forall k v, assoc k lk = Some v -> assoc k (lookup q) = Some v).
        { intros k v. unfold lk. destruct (contains hw (queue q)); [auto|]. rewrite assoc_remove.
          destruct (Nat.eqb hw k); congruence. }
        assert (Hlk' : forall k, k <> hw -> assoc k lk = assoc k (lookup q)).
        { intros k Hk. unfold lk. destruct (contains hw (queue q)); [auto|]. rewrite assoc_remove.
          destruct (Nat.eqb_spec hw k); congruence. }
        destruct (Hins lk Hlk) as (Hi1 & Hi2).
        assert (Hperm := remove_key_perm b (hw, w) N Hw). simpl in Hperm.
        assert (Hhrest : ~ In h (map fst (remove_key hw b))).
        { intro X. apply Hhb. apply in_map_iff in X. destruct X as (e & <- & X). apply remove_key_incl in X.
          apply in_map; tauto. }
        do 3 (split; [reflexivity|]).
        split.
        { intros k d Hk. unfold lk. destruct (contains hw (queue q)) eqn:Ecn; [reflexivity|].
          apply Hlk'. intros ->. unfold contains in Ecn. destruct (assoc hw (queue q)) eqn:Eas; [discriminate|].
          apply assoc_None in Eas. apply Eas. apply (in_map fst) in Hk; exact Hk. }
        split; [exact Hlk|]. split; [discriminate|].
        intros n' b' E. injection E as <- <-. unfold dpq_push. rewrite (remove_key_notin _ _ Hhrest).
        split; [eauto|].
        split; [rewrite map_fst_app; apply NoDup_snoc; [apply remove_key_NoDup; assumption | assumption]|].
        split.
        { intros k d Hk. apply in_app_iff in Hk. destruct Hk as [Hk|[Hk|[]]].
          - pose proof (remove_key_incl _ _ _ Hk) as [Hkb Hkw]. simpl in Hkw.
            destruct (Hb k d Hkb) as (v & Ev & Hv). exists v.
            rewrite Hi2, Hlk' by (try assumption; intros ->; apply Hhrest; apply (in_map fst) in Hk; exact Hk).
            split; [assumption|apply in_app_iff; auto].
          - injection Hk as <- <-. exists s. split; [assumption|]. apply in_app_iff; simpl; auto. }
        split.
        { rewrite app_length, Hlen. simpl. apply Permutation_length in Hperm. simpl in Hperm. lia. }
        intros e x He Hne Hx.
        assert (Hmw : ltb w m = false) by (apply (Hmax (hm, m)); apply (least_max _ _ Ep)).
        assert (Hcw : ltb w c = false).
        { destruct (ltb w c) eqn:X; [|reflexivity].
          assert (ltb w m = true) by (eapply (sw_trans SW); eassumption). congruence. }
        assert (Hxw : ltb w (snd x) = false).
        { apply in_app_iff in Hx. destruct Hx as [Hx|[<-|[]]]; [|exact Hcw].
          apply remove_key_incl in Hx. apply (Hmax x); tauto. }
        apply in_app_iff in He. destruct He as [He|[<-|[]]].
        -- destruct (Nat.eq_dec (ehash e) hw) as [Ew|Ew].
           ++ destruct (Hb hw w Hw) as (v & _ & Hv).
              assert (e = (hw, w, v)) as -> by (apply (acc_unique _ _ _ (p_acc I)); assumption).
              exact Hxw.
           ++ assert (Hneb : ~ In (ehash e) (map fst b)).
              { intro X. apply Hne. rewrite map_fst_app. apply in_app_iff. left.
                apply in_map_iff in X. destruct X as ([k d] & Ek & X). simpl in Ek; subst k.
                apply in_map_iff. exists (ehash e, d); split; [reflexivity|]. apply remove_key_In; assumption. }
              apply in_app_iff in Hx. destruct Hx as [Hx|[<-|[]]].
              ** apply remove_key_incl in Hx. apply M; tauto.
              ** simpl. eapply (sw_negtrans SW); [|exact Hcw].
                 apply (M e (hw, w)); assumption.
        -- exfalso. apply Hne. rewrite map_fst_app. apply in_app_iff; simpl; auto.
      * (* not cheaper than the worst *)
        exists q. split; [reflexivity|]. do 3 (split; [reflexivity|]). split; [auto|]. split; [auto|].
        split; [congruence|].
        intros n' b' E. rewrite Ea in E. injection E as <- <-. split; [eauto|]. split; [assumption|].
        destruct (Hins (lookup q)) as (Hi1 & Hi2); [auto|].
        split.
        { intros k d Hk. destruct (Hb k d Hk) as (v & Ev & Hv). exists v. rewrite Hi2.
          - split; [assumption|apply in_app_iff; auto].
          - intros ->. apply Hhb. apply (in_map fst) in Hk; exact Hk. }
        split; [rewrite Hlen; lia|].
        intros e x He Hne Hx. apply in_app_iff in He. destruct He as [He|[<-|[]]]; [auto|].
        simpl. eapply (sw_negtrans SW); [exact Ec|].
        destruct (least_max _ _ Ep) as [_ HM]. apply (HM x Hx).
    + (* capacity 0 *)
      apply (pick_none SWg) in Ep. subst b. simpl in En. subst n.
      exists q. split; [reflexivity|]. do 3 (split; [reflexivity|]). split; [auto|]. split; [auto|].
      split; [congruence|].
      intros n' b' E. rewrite Ea in E. injection E as <- <-. split; [eauto|]. split; [constructor|].
      split; [intros ? ? []|]. split; [reflexivity|]. intros ? ? ? ? [].
  - (* room *)
    unfold atb_insert. rewrite Ea. eexists; split; [reflexivity|]. unfold set_atb; cbn.
    do 3 (split; [reflexivity|]). split; [auto|]. split; [auto|]. split; [discriminate|].
    intros n' b' E. injection E as <- <-. unfold dpq_push. rewrite (remove_key_notin _ _ Hhb).
    destruct (Hins (lookup q)) as (Hi1 & Hi2); [auto|].
    split; [eauto|].
    split; [rewrite map_fst_app; apply NoDup_snoc; assumption|].
    assert (Hall : forall e, In e acc -> In (ehash e) (map fst b)).
    { intros e He.
      assert (Hinc : incl (map ehash acc) (map fst b)).
      { apply NoDup_length_incl; [assumption | rewrite !map_length; lia |].
        intros k Hk. eapply has_keys; eassumption. }
      apply Hinc, in_map, He. }
    split.
    { intros k d Hk. apply in_app_iff in Hk. destruct Hk as [Hk|[Hk|[]]].
      - destruct (Hb k d Hk) as (v & Ev & Hv). exists v. rewrite Hi2.
        + split; [assumption|apply in_app_iff; auto].
        + intros ->. apply Hhb. apply (in_map fst) in Hk; exact Hk.
      - injection Hk as <- <-. exists s. split; [assumption|]. apply in_app_iff; simpl; auto. }
    split; [rewrite app_length, Hlen; simpl; lia|].
    intros e x He Hne Hx. exfalso. apply Hne. rewrite map_fst_app. apply in_app_iff.
    apply in_app_iff in He. destruct He as [He|[<-|[]]]; [left; auto | right; simpl; auto].
Qed.

Lemma flat_ents_app : forall (lk : list (nat * S)) (l l' : list (nat * P)),
  flat_map (fun e => match assoc (fst e) lk with Some s => [(fst e, snd e, s)] | None => [] end) (l ++ l') =
  flat_map (fun e => match assoc (fst e) lk with Some s => [(fst e, snd e, s)] | None => [] end) l ++
  flat_map (fun e => match assoc (fst e) lk with Some s => [(fst e, snd e, s)] | None => [] end) l'.
Proof. intros. apply flat_map_app. Qed.

(** The part of a push after room has been made. *)
Definition finish_push (q : pq) (s : S) (h : nat) (c : P) : option (pq * option entry) :=
  let q := {| queue := dpq_push h c (queue q); lookup := lookup q; seen := seen q;
              max_size := max_size q; atb := atb q; ties := ties q |} in
  let q := push_atb ltb q h c in
  match assoc h (queue q) with
  | None => None
  | Some c' =>
      let lk := or_insert h s (lookup q) in
      Some ({| queue := queue q; lookup := lk; seen := seen q; max_size := max_size q;
               atb := atb q; ties := ties q |},
            match assoc h lk with Some s' => Some (h, c', s') | None => None end)
  end.

Definition atb_cap (q : pq) : option nat := match atb q with Some (n, _) => Some n | None => None end.

Lemma finish_push_ok : forall q acc s h c,
  inv q acc -> ~ In h (map ehash acc) -> length (queue q) < max_size q ->
  exists q', finish_push
     {| queue := queue q; lookup := lookup q; seen := h :: seen q; max_size := max_size q;
        atb := atb q; ties := ties q |} s h c = Some (q', Some (h, c, s)) /\
    inv q' (acc ++ [(h, c, s)]) /\ seen q' = h :: seen q /\ max_size q' = max_size q /\
    atb_cap q' = atb_cap q /\
    Permutation (ents q') ((h, c, s) :: ents q).
Proof.
  intros q acc s h c I Hnew Hlt. unfold finish_push; cbn [queue lookup seen max_size atb ties].
  assert (Hhq : ~ In h (map fst (queue q))) by (intro X; apply Hnew; eapply has_keys; [apply (i_has I) | exact X]).
  assert (Hnl : assoc h (lookup q) = None).
  { destruct (assoc h (lookup q)) as [v|] eqn:E; [|reflexivity]. exfalso. apply (i_lookup I) in E.
    destruct E as (c' & Hc). apply Hnew. apply (in_map ehash) in Hc. exact Hc. }
  assert (Hdp : dpq_push h c (queue q) = queue q ++ [(h, c)]).
  { unfold dpq_push. rewrite remove_key_notin by assumption. reflexivity. }
  rewrite Hdp. set (q0 := {| queue := queue q ++ [(h, c)] |}).
  assert (Pre : pre_inv q0 acc h c).
  { split; unfold q0; cbn.
    - intro k. rewrite (i_seen I). intuition.
    - assumption.
    - apply (i_acc I).
    - apply (i_lookup I).
    - intros k d Hk. apply remove_key_incl in Hk. destruct Hk as [Hk Hne]. simpl in Hne.
      apply in_app_iff in Hk. destruct Hk as [Hk|[Hk|[]]]; [apply (i_has I _ _ Hk)|]. injection Hk as <- <-. congruence.
    - apply in_app_iff; simpl; auto.
    - rewrite map_fst_app. apply NoDup_snoc; [apply (i_nodup I)|assumption].
    - apply (i_atb I). }
  destruct (push_atb_ok s Pre) as (q1 & E1 & Hq & Hsn & Hmx & Hlk & Hlk' & Hnone & Hatb).
  rewrite E1, Hq. unfold q0 at 1; cbn [queue].
  rewrite assoc_app_new by assumption.
  assert (Hnl1 : assoc h (lookup q1) = None).
  { destruct (assoc h (lookup q1)) as [v|] eqn:E; [|reflexivity]. apply Hlk' in E. cbn in E. congruence. }
  assert (Hoi : or_insert h s (lookup q1) = (h, s) :: lookup q1) by (unfold or_insert; rewrite Hnl1; reflexivity).
  rewrite Hoi. cbn [assoc]. rewrite Nat.eqb_refl.
  eexists; split; [reflexivity|].
  assert (Hold : forall k d, In (k, d) (queue q) -> assoc k ((h, s) :: lookup q1) = assoc k (lookup q)).
  { intros k d Hk. cbn [assoc]. destruct (Nat.eqb_spec h k) as [->|Hne].
    - exfalso. apply Hhq. apply (in_map fst) in Hk; exact Hk.
    - rewrite (Hlk k d); [reflexivity|]. unfold q0; cbn. apply in_app_iff; auto. }
  split.
  { split; cbn [queue lookup seen max_size atb ties].
    - try rewrite Hq; unfold q0; cbn. rewrite map_fst_app. apply NoDup_snoc; [apply (i_nodup I)|assumption].
    - rewrite ?Hq, ?Hmx; unfold q0; cbn. rewrite app_length; simpl. lia.
    - intro k. rewrite Hsn; unfold q0; cbn. rewrite map_app, in_app_iff, <- (i_seen I). cbn. intuition.
    - rewrite map_app; cbn. apply NoDup_snoc; [apply (i_acc I)|assumption].
    - intros k v. cbn [assoc]. destruct (Nat.eqb_spec h k) as [->|Hne].
      + intro E; injection E as <-. exists c. apply in_app_iff; simpl; auto.
      + intro E. apply Hlk' in E. cbn in E. destruct (i_lookup I _ E) as (d & Hd). exists d. apply in_app_iff; auto.
    - try rewrite Hq; unfold q0; cbn [queue]. intros k d Hk. apply in_app_iff in Hk. destruct Hk as [Hk|[Hk|[]]].
      + rewrite (Hold k d Hk). destruct (i_has I _ _ Hk) as (v & Ev & Hv). exists v; split; [assumption|apply in_app_iff; auto].
      + injection Hk as <- <-. exists s. cbn [assoc]. rewrite Nat.eqb_refl. split; [reflexivity|apply in_app_iff; simpl; auto].
    - intros n b E. destruct (Hatb n b E) as (_ & N & Hb & L & M). rewrite <- Hoi. auto. }
  split; [cbn; rewrite Hsn; reflexivity|]. split; [cbn; rewrite Hmx; reflexivity|].
  split.
  { unfold atb_cap; cbn. destruct (atb q1) as [[n b]|] eqn:E1'.
    - destruct (Hatb n b eq_refl) as ((b0 & E0) & _). unfold q0 in E0; cbn in E0. rewrite E0. reflexivity.
    - destruct (atb q) as [[n b]|] eqn:E2; [|reflexivity]. exfalso.
      assert (X : push_atb ltb q0 h c = q1) by exact E1. clear - X E1' E2.
      unfold push_atb in X. unfold q0 in X; cbn in X. rewrite ?E2 in X.
      destruct (Nat.eqb (length b) n).
      + destruct (pick (gtb ltb) 0 b) as [[? m]|]; [destruct (ltb c m)|]; subst q1; cbn in E1'.
        * unfold pop_max_atb in E1'; cbn in E1'. rewrite ?E2 in E1'.
          destruct (dpq_pop (gtb ltb) (ties q 0) b) as [[[? ?] ?]|]; unfold atb_insert in E1'; cbn in E1'; rewrite ?E2 in E1'; discriminate.
        * congruence.
        * congruence.
      + unfold atb_insert in X; cbn in X. subst q1. rewrite ?E2 in E1'; cbn in E1'. discriminate. }
  unfold ents; cbn [queue lookup]. rewrite ?Hq; unfold q0; cbn [queue]. rewrite flat_ents_app.
  rewrite (ents_ext ((h, s) :: lookup q1) (lookup q) (queue q) Hold).
  cbn [flat_map fst snd assoc]. rewrite Nat.eqb_refl. cbn [app]. rewrite app_nil_r || idtac.
  symmetry. apply Permutation_cons_append.
Qed.

Lemma pq_push_eq : forall (q : pq) s h c, pq_push ltb q s h c =
  match check_accepted ltb q c with
  | None => None
  | Some false => Some (q, None)
  | Some true =>
      if existsb (Nat.eqb h) (seen q) then Some (q, None)
      else
        let q := {| queue := queue q; lookup := lookup q; seen := h :: seen q;
                    max_size := max_size q; atb := atb q; ties := ties q |} in
        finish_push (if Nat.leb (max_size q) (length (queue q)) then fst (pq_pop_max ltb q) else q) s h c
  end.
Proof. reflexivity. Qed.

(** Adding a hash to the seen set commutes with popping. *)
Lemma pop_by_seen : forall (better : P -> P -> bool) (q : pq) sn,
  fst (pop_by better {| queue := queue q; lookup := lookup q; seen := sn; max_size := max_size q;
        atb := atb q; ties := ties q |}) =
  let q' := fst (pop_by better q) in
  {| queue := queue q'; lookup := lookup q'; seen := sn; max_size := max_size q';
     atb := atb q'; ties := ties q' |}.
Proof.
  intros better q sn. unfold pop_by; cbn [queue lookup seen max_size atb ties].
  destruct (dpq_pop better (ties q 0) (queue q)) as [[[h c] r]|]; [|reflexivity].
  change (fetch {| queue := queue q; lookup := lookup q; seen := sn; max_size := max_size q; atb := atb q; ties := ties q |} h)
    with (fetch q h). destruct (fetch q h) as [o lk]. reflexivity.
Qed.

Lemma push_ok : forall q acc s h c, inv q acc ->
  exists q' r, pq_push ltb q s h c = Some (q', r) /\
    abs_step ltb (max_size q) (ents q, seen q) (Push s h c) (Pushed r) (ents q', seen q') /\
    inv q' (acc ++ accepted [Pushed r]) /\ max_size q' = max_size q /\ atb_cap q' = atb_cap q.
Proof.
  intros q acc s h c I. rewrite pq_push_eq.
  destruct (check_accepted_ok c I) as ([|] & -> & Ht & Hf).
  2:{ exists q, None. split; [reflexivity|]. destruct (Hf eq_refl) as [Hl Hg]. split.
      - apply AFull; [rewrite (ents_length I); assumption|]. intros e He.
        apply (ents_In _ I) in He. eapply Hg. apply He.
      - cbn. rewrite app_nil_r. auto. }
  destruct (existsb (Nat.eqb h) (seen q)) eqn:Es.
  { apply existsb_seen in Es. exists q, None. split; [reflexivity|]. split; [apply ASeen; assumption|].
    cbn. rewrite app_nil_r. auto. }
  assert (Hns : ~ In h (seen q)) by (rewrite <- existsb_seen; congruence).
  assert (Hna : ~ In h (map ehash acc)) by (rewrite <- (i_seen I); assumption).
  cbv zeta. cbn [queue max_size].
  specialize (Ht eq_refl).
  destruct (Nat.leb_spec (max_size q) (length (queue q))) as [Hle|Hlt].
  - (* evict *)
    destruct Ht as [Ht|(Hpos & Hlen & hm & m & Hm & Hcm & Hmax)]; [lia|].
    unfold pq_pop_max. rewrite pop_by_seen. cbv zeta.
    destruct (pop_by_ok SWg I) as [[Hemp _]|(q1 & w & E1 & I1 & Hw & Hwm & Hperm & Hs1 & Hm1 & Ha1 & Hne1 & Hl1 & Hlk1 & Hq1)].
    { rewrite Hemp in Hm; destruct Hm. }
    rewrite E1. cbn [fst].
    destruct (@finish_push_ok q1 acc s h c I1 Hna) as (q' & E' & I' & Hs' & Hm' & Ha' & Hp'); [lia|].
    rewrite Hs1 in *. exists q', (Some (h, c, s)). split; [exact E'|].
    split.
    { rewrite Hs'. apply AEvict with w.
      - rewrite (ents_length I). assumption.
      - assumption.
      - assumption.
      - exact Hwm.
      - destruct (In_ents hm m I Hm) as (v & _ & Hv). pose proof (Hwm _ Hv) as X. unfold gtb, ecost in X; simpl in X.
        destruct (ltb c (ecost w)) eqn:Ecw; [reflexivity|]. exfalso.
        pose proof (sw_negtrans SW _ _ _ Ecw X). congruence.
      - rewrite Hperm, Hp'. apply perm_swap. }
    cbn. split; [assumption|]. split; [congruence|]. unfold atb_cap in *. rewrite <- Ha1. assumption.
  - (* room *)
    destruct (@finish_push_ok q acc s h c I Hna) as (q' & E' & I' & Hs' & Hm' & Ha' & Hp'); [lia|].
    exists q', (Some (h, c, s)). split; [exact E'|].
    split; [rewrite Hs'; apply AInsert; [eapply Nat.le_lt_trans; [apply Nat.eq_le_incl, (ents_length I) | assumption] | assumption | assumption]|].
    cbn. auto.
Qed.

Lemma pop_ok : forall q acc, inv q acc ->
  exists q' r, pq_pop ltb q = (q', r) /\
    abs_step ltb (max_size q) (ents q, seen q) Pop (Popped r) (ents q', seen q') /\
    inv q' acc /\ max_size q' = max_size q /\ atb_cap q' = atb_cap q /\
    (r = None -> queue q = [] /\ q' = q).
Proof.
  intros q acc I. unfold pq_pop.
  destruct (pop_by_ok SW I) as [[Hemp E]|(q1 & w & E1 & I1 & Hw & Hwm & Hperm & Hs1 & Hm1 & Ha1 & Hne1 & Hl1 & Hlk1 & Hq1)].
  - exists q, None. split; [assumption|]. split; [unfold ents; rewrite Hemp; apply AEmpty|]. auto.
  - exists q1, (Some w). split; [assumption|]. rewrite Hs1. split; [apply APop; assumption|].
    split; [assumption|]. split; [assumption|]. split; [unfold atb_cap; rewrite Ha1; reflexivity|]. discriminate.
Qed.

Lemma inv_new : forall max nb t, inv (pq_new max nb t) [].
Proof.
  intros max nb t. split.
  - constructor.
  - cbn; lia.
  - cbn; tauto.
  - constructor.
  - cbn; discriminate.
  - intros ? ? [].
  - cbn. intros n b E. destruct nb as [n'|]; [|discriminate]. injection E as <- <-.
    split; [constructor|]. split; [intros ? ? []|]. split; [cbn; lia|]. intros ? ? [].
Qed.

Lemma do_calls_ok : forall cs q acc, inv q acc ->
  exists q' os, do_calls ltb q cs = Some (q', os) /\
    abs_run ltb (max_size q) (ents q, seen q) cs os (ents q', seen q') /\
    inv q' (acc ++ accepted os) /\ max_size q' = max_size q /\ atb_cap q' = atb_cap q.
Proof.
  induction cs as [|c cs IH]; intros q acc I.
  - exists q, []. split; [reflexivity|]. split; [constructor|]. cbn. rewrite app_nil_r. auto.
  - assert (Hc : exists q1 o, do_call ltb q c = Some (q1, o) /\
       abs_step ltb (max_size q) (ents q, seen q) c o (ents q1, seen q1) /\
       inv q1 (acc ++ accepted [o]) /\ max_size q1 = max_size q /\ atb_cap q1 = atb_cap q).
    { destruct c as [s h c|].
      - destruct (push_ok s h c I) as (q1 & r & E & A & I1 & R). exists q1, (Pushed r). cbn. rewrite E. auto.
      - destruct (pop_ok I) as (q1 & r & E & A & I1 & R1 & R2 & _). exists q1, (Popped r). cbn [do_call]. rewrite E.
        cbn. rewrite app_nil_r. auto. }
    destruct Hc as (q1 & o & E1 & A1 & I1 & M1 & C1).
    destruct (IH q1 _ I1) as (q2 & os & E2 & A2 & I2 & M2 & C2).
    exists q2, (o :: os). cbn [do_calls]. rewrite E1, E2. split; [reflexivity|].
    split; [econstructor; [eassumption|rewrite <- M1; assumption]|].
    split; [|split; congruence].
    replace (acc ++ accepted (o :: os)) with ((acc ++ accepted [o]) ++ accepted os); [assumption|].
    rewrite <- app_assoc. unfold accepted; cbn. rewrite app_nil_r. reflexivity.
Qed.

(** ** The n best *)

Lemma sorted_iter_ok : forall fuel l t, NoDup (map fst l) -> length l <= fuel ->
  Permutation (sorted_iter ltb fuel l t) l /\
  (forall i j x y, i < j -> nth_error (sorted_iter ltb fuel l t) i = Some x ->
     nth_error (sorted_iter ltb fuel l t) j = Some y -> ltb (snd y) (snd x) = false).
Proof.
  induction fuel as [|fuel IH]; intros l t N L.
  - destruct l; [|simpl in L; lia]. cbn. split; [constructor|]. intros [|i] j x y; discriminate.
  - cbn [sorted_iter]. destruct (dpq_pop ltb (t 0) l) as [[e r]|] eqn:E.
    + destruct (dpq_pop_some _ _ _ E) as (Hin & Hm & ->).
      assert (Hp := remove_key_perm l e N Hin).
      destruct (IH (remove_key (fst e) l) (next_ties t)) as (P1 & S1).
      * apply remove_key_NoDup; assumption.
      * apply Permutation_length in Hp. simpl in Hp. lia.
      * split; [rewrite P1; symmetry; assumption|].
        intros [|i] [|j] x y Hij Hx Hy; try lia; cbn in Hx, Hy.
        -- injection Hx as <-. apply Hm. apply nth_error_In in Hy.
           eapply Permutation_in in Hy; [|exact P1]. apply remove_key_incl in Hy. tauto.
        -- eapply S1 with (i := i) (j := j); [lia| |]; eassumption.
    + apply (dpq_pop_none SW) in E. subst l. split; [constructor|]. intros [|i] j x y; discriminate.
Qed.

Lemma collect_ok : forall (l : list (nat * P)) lk acc, NoDup (map fst l) -> has lk acc l ->
  exists es, collect_states l lk = Some (map estate es) /\
    map (fun e => (ehash e, ecost e)) es = l /\ incl es acc.
Proof.
  induction l as [|[h c] l IH]; intros lk acc N Hh.
  - exists []. repeat split; intros ? [].
  - inversion N; subst. destruct (Hh h c) as (s & E & Ha); [left; reflexivity|].
    destruct (IH (remove_key h lk) acc) as (es & E1 & E2 & E3); [assumption| |].
    { intros k d Hk. destruct (Hh k d) as (v & Ev & Hv); [right; assumption|]. exists v; split; [|assumption].
      rewrite assoc_remove. destruct (Nat.eqb_spec h k); [|assumption]. subst. exfalso. apply H1.
      apply (in_map fst) in Hk; exact Hk. }
    exists ((h, c, s) :: es). cbn. rewrite E, E1, E2. repeat split; auto.
    intros x [<-|Hx]; auto.
Qed.

Lemma cost_sorted_nth : forall l : list entry,
  (forall i j x y, i < j -> nth_error l i = Some x -> nth_error l j = Some y -> ltb (ecost y) (ecost x) = false) ->
  cost_sorted ltb l.
Proof.
  induction l as [|e l IH]; intro Hs; cbn; [exact Logic.I|]. split.
  - intros x Hx. apply In_nth_error in Hx. destruct Hx as (j & Hj).
    apply (Hs 0 (Datatypes.S j) e x); [lia | reflexivity | exact Hj].
  - apply IH. intros i j x y Hij Hx Hy. apply (Hs (Datatypes.S i) (Datatypes.S j)); [lia | exact Hx | exact Hy].
Qed.

Lemma into_atb_ok : forall q acc n b, inv q acc -> atb q = Some (n, b) ->
  exists best, into_all_time_best ltb q = Some (Some (map estate best)) /\ n_cheapest ltb n acc best.
Proof.
  intros q acc n b I E. destruct (i_atb I E) as (N & Hb & L & M).
  unfold into_all_time_best. rewrite E.
  destruct (@sorted_iter_ok (length b) b (ties q) N (le_n _)) as (Hp & Hs).
  set (l := sorted_iter ltb (length b) b (ties q)) in *.
  assert (Nl : NoDup (map fst l)).
  { apply (Permutation_map fst) in Hp. symmetry in Hp. eapply Permutation_NoDup; eassumption. }
  destruct (@collect_ok l (lookup q) acc Nl) as (es & E1 & E2 & E3).
  { intros h c Hi. apply Hb. eapply Permutation_in; eassumption. }
  rewrite E1. exists es. split; [reflexivity|].
  assert (Ehash : map ehash es = map fst l) by (rewrite <- E2, map_map; reflexivity).
  split; [rewrite Ehash; assumption|]. split; [assumption|].
  split.
  { rewrite <- L, <- (Permutation_length Hp), <- E2, map_length. reflexivity. }
  split.
  { apply cost_sorted_nth. intros i j x y Hij Hx Hy.
    apply (Hs i j (ehash x, ecost x) (ehash y, ecost y)); [assumption| |];
      rewrite <- E2, nth_error_map; [rewrite Hx | rewrite Hy]; reflexivity. }
  intros e x He Hne Hx. apply (M e (ehash x, ecost x)); [assumption| |].
  - intro X. apply Hne.
    assert (Hl : In (ehash e) (map ehash es)).
    { rewrite Ehash. apply (Permutation_in (l := map fst b)); [apply Permutation_map; symmetry; assumption | assumption]. }
    apply in_map_iff in Hl. destruct Hl as (e' & Eh & He'). 
    rewrite (acc_unique acc e e' (i_acc I)); auto.
  - apply (Permutation_in (l := l)); [assumption|]. rewrite <- E2. apply in_map_iff. exists x; auto.
Qed.
End Queue.
