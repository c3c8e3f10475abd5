(** Lemmas on costs. *)
From Coq Require Import ZArith List Bool Lia Permutation.
From Verif Require Import PQueueSpec CostSpec CostModel.
Import ListNotations.
Open Scope Z_scope.

Lemma m64_m63 : m64 = 2 * m63. Proof. reflexivity. Qed.
Lemma m63_pos : 0 < m63. Proof. reflexivity. Qed.

Lemma wrapu_id : forall x, 0 <= x < m64 -> wrapu x = x.
Proof. intros. unfold wrapu. apply Z.mod_small. assumption. Qed.
Lemma wrapi_id : forall x, - m63 <= x < m63 -> wrapi x = x.
Proof.
  intros. unfold wrapi. rewrite Z.mod_small; [lia|]. rewrite m64_m63. lia.
Qed.
Lemma wrapi_add : forall x y, wrapi (wrapi x + y) = wrapi (x + y).
Proof.
  intros. unfold wrapi.
  replace ((x + m63) mod m64 - m63 + y + m63) with ((x + m63) mod m64 + y) by lia.
  rewrite Zplus_mod_idemp_l. do 2 f_equal. lia.
Qed.

Lemma zip_length : forall f a b, length a = length b -> length (zip_with f a b) = length a.
Proof. induction a; destruct b; simpl; intros; try discriminate; auto. Qed.
Lemma zip_nth : forall f a b i, length a = length b -> (i < length a)%nat ->
  nth i (zip_with f a b) 0 = f (nth i a 0) (nth i b 0).
Proof. induction a; destruct b; simpl; intros; try discriminate; try lia. destruct i; auto. apply IHa; lia. Qed.
Lemma zip_comm : forall f a b, (forall x y, f x y = f y x) -> zip_with f a b = zip_with f b a.
Proof. induction a; destruct b; simpl; intros; auto. rewrite H, IHa by assumption. reflexivity. Qed.
Lemma list_ext : forall a b : list Z, length a = length b ->
  (forall i, (i < length a)%nat -> nth i a 0 = nth i b 0) -> a = b.
Proof.
  induction a; destruct b; simpl; intros; try discriminate; auto.
  f_equal; [apply (H0 0%nat); lia|]. apply IHa; [lia|]. intros i Hi. apply (H0 (Datatypes.S i)). lia.
Qed.

(** Order. *)
Lemma cmp_refl : forall a, cost_cmp a a = Eq.
Proof. induction a; simpl; auto. rewrite Z.compare_refl. assumption. Qed.
Lemma cmp_eq : forall a b, cost_cmp a b = Eq <-> a = b.
Proof.
  induction a; destruct b; simpl; split; intros; try discriminate; auto.
  - destruct (Z.compare a z) eqn:E; try discriminate. apply Z.compare_eq in E. subst. f_equal. apply IHa. assumption.
  - injection H as -> ->. rewrite Z.compare_refl. apply cmp_refl.
Qed.
Lemma cmp_antisym : forall a b, cost_cmp b a = CompOpp (cost_cmp a b).
Proof.
  induction a; destruct b; simpl; auto. rewrite (Z.compare_antisym a z). destruct (Z.compare a z); simpl; auto.
Qed.
Lemma ltb_trans : forall a b c, cost_cmp a b = Lt -> cost_cmp b c = Lt -> cost_cmp a c = Lt.
Proof.
  induction a as [|x a IH]; destruct b as [|y b], c as [|z c]; simpl; intros H1 H2; try discriminate; auto.
  destruct (Z.compare_spec x y), (Z.compare_spec y z); try discriminate; subst.
  - rewrite Z.compare_refl. eauto.
  - destruct (Z.compare_spec y z); try lia. reflexivity.
  - destruct (Z.compare_spec x z); try lia. reflexivity.
  - destruct (Z.compare_spec x z); try lia. reflexivity.
Qed.
Lemma cost_strict_weak : strict_weak cost_ltb.
Proof.
  split; unfold cost_ltb; intros a b.
  - intro H. rewrite cmp_antisym. destruct (cost_cmp a b); try discriminate. reflexivity.
  - intros c H1 H2. destruct (cost_cmp a c) eqn:E; auto.
    destruct (cost_cmp a b) eqn:E1; try discriminate.
    + apply cmp_eq in E1. subst. rewrite E in H2. discriminate.
    + destruct (cost_cmp b c) eqn:E2; try discriminate.
      * apply cmp_eq in E2. subst. congruence.
      * assert (cost_cmp b a = Lt) by (rewrite cmp_antisym, E1; reflexivity).
        pose proof (ltb_trans _ _ _ H E). congruence.
Qed.
Lemma ltb_lex : forall a b, length a = length b -> (cost_ltb a b = true <-> lex a b).
Proof.
  unfold cost_ltb. induction a as [|x a IH]; destruct b as [|y b]; simpl; intros HL; try discriminate.
  - split; [discriminate|]. intros (_ & k & Hk & _). simpl in Hk. lia.
  - injection HL as HL. destruct (Z.compare_spec x y) as [E|E|E].
    + subst. rewrite IH by assumption. split.
      * intros (_ & k & Hk & Hl & Hi). split; [simpl; lia|]. exists (Datatypes.S k). simpl.
        split; [lia|]. split; [assumption|]. intros [|i] Hi'; [reflexivity|]. apply Hi; lia.
      * intros (_ & k & Hk & Hl & Hi). split; [assumption|]. destruct k as [|k]; [simpl in Hl; lia|].
        exists k. simpl in *. split; [lia|]. split; [assumption|]. intros i Hi'. apply (Hi (Datatypes.S i)). lia.
    + split; auto. intros _. split; [simpl; lia|]. exists 0%nat. simpl. split; [lia|]. split; [assumption|]. intros; lia.
    + split; [discriminate|]. intros (_ & k & Hk & Hl & Hi). destruct k as [|k]; [simpl in Hl; lia|].
      specialize (Hi 0%nat). simpl in Hi. lia.
Qed.

(** Addition. *)
Lemma add_comm : forall a b, cost_add a b = cost_add b a.
Proof. intros. apply zip_comm. intros. f_equal. lia. Qed.
Lemma add_assoc : forall a b c, cost_add a (cost_add b c) = cost_add (cost_add a b) c.
Proof.
  unfold cost_add. induction a; destruct b, c; simpl; auto. f_equal; [|apply IHa].
  unfold wrapu. rewrite Zplus_mod_idemp_r, Zplus_mod_idemp_l. f_equal. lia.
Qed.

Definition small (a b : list Z) : Prop :=
  forall i, (i < length a)%nat -> 0 <= nth i a 0 + nth i b 0 < m64.
Lemma add_nth : forall a b i, length a = length b -> small a b -> (i < length a)%nat ->
  nth i (cost_add a b) 0 = nth i a 0 + nth i b 0.
Proof. intros. unfold cost_add. rewrite zip_nth by assumption. apply wrapu_id. apply H0. assumption. Qed.

(** Sums: the model's sum is the componentwise integer sum, if that fits. *)
Lemma zsum_app : forall a b, zsum (a ++ b) = zsum a + zsum b.
Proof. induction a; simpl; intros; auto. rewrite IHa. lia. Qed.
Lemma zsum_perm : forall a b, Permutation a b -> zsum a = zsum b.
Proof. induction 1; simpl; lia. Qed.
Lemma zsum_nonneg : forall l, (forall x, In x l -> 0 <= x) -> 0 <= zsum l.
Proof. induction l; simpl; intros; [lia|]. specialize (H a) as H'. assert (0 <= zsum l) by (apply IHl; auto). lia || (specialize (H' (or_introl eq_refl)); lia). Qed.

Lemma fold_add_length : forall N l x, length x = N -> (forall v, In v l -> length v = N) ->
  length (fold_left cost_add l x) = N.
Proof.
  induction l; simpl; intros; auto. apply IHl; auto. unfold cost_add. rewrite zip_length; auto. rewrite H. symmetry. auto.
Qed.
Lemma fold_add_nth : forall N l x i, length x = N -> (forall v, In v l -> length v = N) ->
  (i < N)%nat -> nth i (fold_left cost_add l x) 0 mod m64 = (nth i x 0 + zsum (map (component i) l)) mod m64.
Proof.
  induction l; simpl; intros x i Hx Hl Hi; [f_equal; lia|].
  assert (La : length x = length a) by (rewrite Hx; symmetry; auto).
  rewrite IHl; auto; [|unfold cost_add; rewrite zip_length; auto].
  unfold cost_add. rewrite zip_nth by (auto; congruence).
  unfold wrapu. rewrite Zplus_mod_idemp_l. f_equal. unfold component. lia.
Qed.
Lemma fold_add_range : forall N l x i, length x = N -> (forall v, In v l -> length v = N) -> (i < N)%nat ->
  0 <= nth i x 0 < m64 -> 0 <= nth i (fold_left cost_add l x) 0 < m64.
Proof.
  induction l; simpl; intros; auto. apply IHl; auto.
  - unfold cost_add. rewrite zip_length; auto. rewrite H. symmetry; auto.
  - unfold cost_add. rewrite zip_nth; [apply Z.mod_pos_bound; reflexivity|rewrite H; symmetry; auto|congruence].
Qed.

Lemma cost_sum_length : forall N l, (forall v, In v l -> length v = N) -> length (cost_sum N l) = N.
Proof. intros N [|x r] H; simpl; [apply repeat_length|]. apply fold_add_length; intros; apply H; simpl; auto. Qed.
Lemma cost_sum_total : forall N l, (forall v, In v l -> length v = N) ->
  (forall v i, In v l -> (i < N)%nat -> 0 <= component i v < m64) ->
  (forall i, (i < N)%nat -> zsum (map (component i) l) < m64) ->
  is_total N l (cost_sum N l).
Proof.
  intros N l HL HR HS. split; [apply cost_sum_length; assumption|]. intros i Hi. unfold component at 1.
  destruct l as [|x r]; simpl.
  - unfold cost_default. apply nth_repeat.
  - pose proof (fold_add_nth N r x i (HL x (or_introl eq_refl)) (fun v h => HL v (or_intror h)) Hi) as E.
    pose proof (fold_add_range N r x i (HL x (or_introl eq_refl)) (fun v h => HL v (or_intror h)) Hi (HR x i (or_introl eq_refl) Hi)) as R.
    rewrite (Z.mod_small _ _ R) in E. rewrite E. change (nth i x 0) with (component i x). apply Z.mod_small. split.
    + specialize (HR x i (or_introl eq_refl) Hi) as R0.
      assert (0 <= zsum (map (component i) r)); [|lia]. apply zsum_nonneg. intros y Hy. apply in_map_iff in Hy.
      destruct Hy as (v & <- & Hv). apply (HR v i (or_intror Hv) Hi).
    + apply (HS i Hi).
Qed.

Lemma total_unique : forall N l t t', is_total N l t -> is_total N l t' -> t = t'.
Proof.
  intros N l t t' [L T] [L' T']. apply list_ext; [congruence|]. intros i Hi. rewrite L in Hi.
  specialize (T i Hi). specialize (T' i Hi). unfold component in *. congruence.
Qed.

(** The delta law. *)
Lemma sat_id : forall x, 0 <= x < m64 -> sat x = x.
Proof. intros. unfold sat. destruct (Z.ltb_spec x 0); [lia|]. destruct (Z.leb_spec m64 x); lia. Qed.
Lemma sub_cost_nth : forall a b i, length a = length b -> (i < length a)%nat ->
  0 <= nth i a 0 < m63 -> 0 <= nth i b 0 < m63 -> nth i (sub_cost a b) 0 = nth i a 0 - nth i b 0.
Proof.
  intros. unfold sub_cost. rewrite zip_nth by assumption.
  rewrite (wrapi_id (nth i a 0)), (wrapi_id (nth i b 0)) by lia. apply wrapi_id. lia.
Qed.
Lemma sub_cost_length : forall a b, length a = length b -> length (sub_cost a b) = length a.
Proof. intros. apply zip_length. assumption. Qed.
Lemma add_delta_nth : forall a d i, length a = length d -> (i < length a)%nat ->
  0 <= nth i a 0 + nth i d 0 < m64 -> nth i (add_delta a d) 0 = nth i a 0 + nth i d 0.
Proof. intros. unfold add_delta. rewrite zip_nth by assumption. apply sat_id. assumption. Qed.
Lemma component_nth : forall i v, component i v = nth i v 0. Proof. reflexivity. Qed.

Lemma delta_exact : forall N rest pat tgt circ tot_p tot_t tot_c tot_c',
  Permutation circ (rest ++ pat) ->
  (forall v i, In v (rest ++ pat ++ tgt) -> (i < N)%nat -> 0 <= component i v) ->
  (forall i, (i < N)%nat -> zsum (map (component i) (rest ++ pat ++ tgt)) < m63) ->
  is_total N pat tot_p -> is_total N tgt tot_t -> is_total N circ tot_c -> is_total N (rest ++ tgt) tot_c' ->
  add_delta tot_c (sub_cost tot_t tot_p) = tot_c'.
Proof.
  intros N rest pat tgt circ p t c c' HP HN HB [Lp Tp] [Lt Tt] [Lc Tc] [Lc' Tc'].
  assert (L : length c = length (sub_cost t p)) by (rewrite sub_cost_length; congruence).
  apply list_ext; [unfold add_delta; rewrite zip_length; congruence|].
  intros i Hi. unfold add_delta in Hi. rewrite zip_length in Hi by assumption.
  assert (Hi' : (i < N)%nat) by congruence.
  assert (Z3 : forall l, (forall v, In v l -> In v (rest ++ pat ++ tgt)) -> 0 <= zsum (map (component i) l)).
  { intros l Hl. apply zsum_nonneg. intros y Hy. apply in_map_iff in Hy. destruct Hy as (v & <- & Hv). apply HN; auto. }
  assert (N1 := Z3 rest ltac:(intros; apply in_app_iff; auto)).
  assert (N2 := Z3 pat ltac:(intros; rewrite !in_app_iff; auto)).
  assert (N3 := Z3 tgt ltac:(intros; rewrite !in_app_iff; auto)).
  specialize (HB i Hi'). rewrite !map_app, !zsum_app in HB.
  specialize (Tp i Hi'). specialize (Tt i Hi'). specialize (Tc i Hi'). specialize (Tc' i Hi').
  rewrite (zsum_perm _ _ (Permutation_map (component i) HP)), map_app, zsum_app in Tc.
  rewrite map_app, zsum_app in Tc'. rewrite component_nth in *.
  assert (S : nth i (sub_cost t p) 0 = nth i t 0 - nth i p 0) by (apply sub_cost_nth; congruence || (rewrite ?Lt; lia) || lia).
  rewrite add_delta_nth; [rewrite S; lia|assumption|assumption|].
  rewrite S. rewrite m64_m63. lia.
Qed.

(** Division. *)
Lemma div_covers : forall x n, 0 < n -> 0 <= x -> x <= n * (satsub1 x / n + 1).
Proof.
  intros x n Hn Hx. unfold satsub1. destruct (Z.ltb_spec x 1).
  - rewrite Z.div_0_l by lia. nia.
  - pose proof (Z.mul_succ_div_gt (x - 1) n Hn). lia.
Qed.
Lemma div_least : forall x n k, 0 < n -> 1 <= x -> x <= n * k -> satsub1 x / n + 1 <= k.
Proof.
  intros x n k Hn Hx Hk. unfold satsub1. destruct (Z.ltb_spec x 1); [lia|].
  assert ((x - 1) / n < k); [|lia]. apply Z.div_lt_upper_bound; lia.
Qed.

(** Strict monotonicity of addition. *)
Lemma add_mono : forall a b c, length a = length b -> length c = length a ->
  small a c -> small b c -> lex a b -> lex (cost_add a c) (cost_add b c).
Proof.
  intros a b c L Lc Sa Sb (_ & k & Hk & Hl & Hi).
  assert (La : length (cost_add a c) = length a) by (apply zip_length; congruence).
  assert (Lb : length (cost_add b c) = length b) by (apply zip_length; congruence).
  split; [congruence|]. exists k. split; [lia|]. split.
  - rewrite (add_nth a c), (add_nth b c); try assumption; try congruence; lia.
  - intros i Hik. rewrite (add_nth a c), (add_nth b c); try assumption; try congruence; try lia. rewrite Hi by assumption. reflexivity.
Qed.
