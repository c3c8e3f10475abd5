(** The rewritten region: values, validity and types. *)
From Coq Require Import List Bool Arith Lia.
From Verif Require Import PatSpec TupModel TupSpec TupProofs.
Import ListNotations.

Section Sim.
Variable O : Type.
Notation node := (node O).
Notation region := (region O).
Variable c : region.
Hypothesis Hv : valid c.
Variable fits : O -> list typ -> list typ -> Prop.
Variable ty : source -> typ.
Hypothesis Ht : typed fits ty c.
Variables (x : node) (n : nat).
Hypothesis Hx : In x (t_nodes c).
Hypothesis Ho : t_op x = MakeTuple n.
Variable r : tuple_rewrite O.
Hypothesis Hr : make_rewrite c x = Rewrite r.
Variable fresh : nat.
Hypothesis Hf : ~ In fresh (map t_id (t_nodes c)).
Notation w0 := (Out (t_id x) 0).
Notation us := (unpack_nodes c w0).
Notation others := (length (links c w0) - length us).
Notation red := (redirect r fresh).
Notation keep := (Nat.ltb 0 others).
Lemma Hlen : length (t_args x) = n.
Proof. exact (pack_len O c fits ty Ht x n Hx Ho). Qed.
Lemma Hus y : In y us -> In y (t_nodes c) /\ t_op y = UnpackTuple n /\ t_args y = [w0].
Proof. exact (in_us O c fits ty Ht x n Hx Ho y). Qed.
Lemma us_ne : us <> [].
Proof. intros E. unfold make_rewrite in Hr. rewrite Ho in Hr. cbv zeta in Hr. rewrite E in Hr. discriminate. Qed.
Lemma r_is : r = {| rw_pack := x; rw_removed := map t_id (us ++ [x]); rw_outs := cand O c x n ++ (if keep then [w0] else []);
    rw_new := cycle_take n (n * length us) ++ repeat RTuple others; rw_keep := keep |} /\ others <= 1.
Proof. apply (proj2 (rewrite_cases O c Hv fits ty Ht x n Hx Ho us_ne)); auto. Qed.
Lemma in_cand w : In w (cand O c x n) <-> exists y j, In y us /\ j < n /\ w = Out (t_id y) j.
Proof.
  unfold cand. rewrite in_flat_map. split.
  - intros (y & I & J). apply in_map_iff in J. destruct J as (j & <- & J). apply in_seq in J. exists y, j. repeat split; auto. lia.
  - intros (y & j & I & J & ->). exists y. split; auto. apply in_map, in_seq. lia.
Qed.
Lemma cand_nodup : NoDup (cand O c x n).
Proof.
  unfold cand. pose proof (us_ids O c Hv fits ty Ht x) as D. revert D. generalize us. clear. intros l D. induction l as [|y l IH]; simpl; [constructor|]. simpl in D. apply NoDup_cons_iff in D. destruct D as [N D'].
  assert (H : forall a b : list source, NoDup a -> NoDup b -> (forall w, In w a -> ~ In w b) -> NoDup (a ++ b)).
  { induction a as [|w a IHa]; simpl; auto. intros b Da Db E. inversion Da; subst. constructor; [rewrite in_app_iff; intros [?|?]; [contradiction|eapply E; eauto]|apply IHa; auto; intros w' I; apply E; auto]. }
  apply H; auto.
  - apply FinFun.Injective_map_NoDup; [intros a b; congruence|apply seq_NoDup].
  - intros w I J. apply in_map_iff in I. destruct I as (j & <- & I). apply in_flat_map in J. destruct J as (z & Iz & J). apply in_map_iff in J. destruct J as (k & [= E _] & _). apply N. rewrite <- E. apply in_map; auto.
Qed.
Lemma w0_not_cand : ~ In w0 (cand O c x n).
Proof. rewrite in_cand. intros (y & j & I & _ & [= E _]). apply (x_not_us O c Hv fits ty Ht x n Hx Ho). pose proof (in_map t_id _ _ I) as Q. rewrite <- E in Q. exact Q. Qed.
Lemma outs_nodup : NoDup (rw_outs r).
Proof.
  destruct r_is as [-> _]. simpl. destruct keep; [|rewrite app_nil_r; apply cand_nodup]. assert (H : forall (a : list source) w, NoDup a -> ~ In w a -> NoDup (a ++ [w])).
  { clear. induction a as [|v a IH]; simpl; intros w D N; [constructor; auto; constructor|]. inversion D; subst. constructor; [rewrite in_app_iff; simpl; intuition congruence|apply IH; auto]. }
  apply H; [apply cand_nodup|apply w0_not_cand].
Qed.
Lemma red_unpack y j : In y us -> j < n -> red (Out (t_id y) j) = nth j (t_args x) (Out (t_id y) j).
Proof.
  intros I J. destruct (split_nth y us I x) as (i & Li & Ei). unfold redirect.
  assert (N : i * n + j < n * length us) by nia. assert (L : i * n + j < length (cand O c x n)) by (rewrite cand_len; auto).
  assert (E : nth (i * n + j) (cand O c x n) w0 = Out (t_id y) j).
  { unfold cand. rewrite (nth_flat_map _ n us i j w0 x); auto; [|intros z _; rewrite map_length, seq_length; auto]. rewrite Ei. rewrite (nth_indep _ _ (Out (t_id y) 0)) by (rewrite map_length, seq_length; auto).
    rewrite map_nth, seq_nth; auto. }
  rewrite (position_nodup (Out (t_id y) j) (rw_outs r) (i * n + j) w0).
  - destruct r_is as [-> _]. simpl. rewrite app_nth1; [|unfold cycle_take; destruct n; [lia|]; rewrite map_length, seq_length; auto].
    unfold cycle_take. destruct n as [|m] eqn:En; [lia|]. rewrite <- En in *.
    rewrite (nth_indep _ _ (RIn (0 mod n))) by (rewrite map_length, seq_length; auto).
    change (RIn (0 mod n)) with ((fun q => RIn (q mod n)) 0). rewrite map_nth, seq_nth by auto. simpl. f_equal. rewrite Nat.add_comm, Nat.mod_add by lia. apply Nat.mod_small. auto.
  - apply outs_nodup.
  - destruct r_is as [-> _]. simpl. rewrite app_length. lia.
  - destruct r_is as [-> _]. simpl. rewrite app_nth1; auto.
Qed.
Lemma red_pack : keep = true -> red w0 = Out fresh 0.
Proof.
  intros K. unfold redirect. rewrite (position_nodup w0 (rw_outs r) (length (cand O c x n)) w0).
  - destruct r_is as [-> _]. cbn [rw_new rw_pack target]. rewrite app_nth2; [rewrite nth_repeat; auto|]. rewrite cand_len. unfold cycle_take. destruct n; [simpl; lia|]. rewrite map_length, seq_length. lia.
  - apply outs_nodup.
  - destruct r_is as [-> _]. simpl. rewrite K, app_length. simpl. lia.
  - destruct r_is as [-> _]. simpl. rewrite K, app_nth2, Nat.sub_diag; auto.
Qed.
Lemma red_other w : ~ In w (cand O c x n) -> (w = w0 -> keep = false) -> red w = w.
Proof.
  intros N E. unfold redirect. assert (P : position w (rw_outs r) = None).
  { apply position_none. destruct r_is as [-> _]. simpl. rewrite in_app_iff. intros [I|I]; auto. destruct keep; [destruct I as [<-|[]]; specialize (E eq_refl); discriminate|destruct I]. }
  rewrite P. auto.
Qed.
(** How redirected values look. *)
Lemma red_cases w : red w = w /\ ~ In w (cand O c x n) \/ (w = w0 /\ keep = true /\ red w = Out fresh 0) \/
  (exists y j, In y us /\ j < n /\ w = Out (t_id y) j /\ red w = nth j (t_args x) w /\ In (red w) (t_args x)).
Proof.
  destruct (in_dec source_eq_dec w (cand O c x n)) as [I|I].
  - right. right. apply in_cand in I. destruct I as (y & j & I & J & ->). exists y, j. rewrite red_unpack by auto. repeat split; auto. apply nth_In. rewrite Hlen. auto.
  - destruct (source_eq_dec w w0) as [->|N].
    + destruct (bool_dec keep true) as [K|K]; [right; left; repeat split; auto; apply red_pack; auto|left; split; auto; apply red_other; auto; intros; apply not_true_is_false; auto].
    + left. split; auto. apply red_other; auto. intros; contradiction.
Qed.

(** ** Positions *)
Lemma us_after a y b : t_nodes c = a ++ y :: b -> In y us -> In x a.
Proof.
  intros E I. destruct (Hus y I) as (Iy & _ & Ey). assert (K : known (t_inputs c) a w0) by (eapply va_order; eauto; rewrite Ey; left; auto).
  destruct K as [(? & ? & _)|(z & k & Iz & [= Ez _] & _)]; [discriminate|]. assert (z = x) by (apply (ids_inj _ _ _ (va_ids Hv)); auto; rewrite E; apply in_or_app; auto). subst z; auto.
Qed.
Lemma not_before a b z : t_nodes c = a ++ z :: b -> ~ In z a /\ forall y, In y a -> t_id y <> t_id z.
Proof.
  intros E. pose proof (va_ids Hv) as D. rewrite E, map_app in D. simpl in D. apply NoDup_remove_2 in D. rewrite in_app_iff in D.
  split; [intros I|intros y I F]; apply D; left; [apply in_map; auto|rewrite <- F; apply in_map; auto].
Qed.
Lemma x_args_plain w : In w (t_args x) -> red w = w /\ ~ In w (cand O c x n) /\ w <> w0.
Proof.
  intros I. destruct (in_split _ _ Hx) as (a & b & E). pose proof (va_order Hv a x b E w I) as K.
  assert (N0 : w <> w0) by (intros ->; eapply known_own; eauto).
  assert (N : ~ In w (cand O c x n)).
  { rewrite in_cand. intros (y & j & Iy & _ & ->). destruct K as [(? & ? & _)|(z & k & Iz & [= Ez _] & _)]; [discriminate|].
    assert (z = y) by (apply (ids_inj _ _ _ (va_ids Hv)); auto; [rewrite E; apply in_or_app; auto|apply Hus; auto]). subst z.
    destruct (in_split _ _ Iz) as (a1 & a2 & ->). rewrite <- app_assoc in E. simpl in E. pose proof (us_after _ _ _ E Iy) as J. destruct (not_before (a1 ++ y :: a2) b x) as [Nb _]; [rewrite E, <- app_assoc; auto|].
    apply Nb, in_or_app. auto. }
  split; auto. apply red_other; auto. intros; contradiction.
Qed.
Definition allowed (w : source) : Prop := w = w0 -> keep = true.
Lemma args_allowed y : In y (t_nodes c) -> ~ In y us -> forall w, In w (t_args y) -> allowed w.
Proof.
  intros I N w J ->. rewrite <- (others_outside O c Hv fits ty Ht x n Hx Ho). unfold outside. apply existsb_exists. exists (Some y). split; [apply in_links; auto|].
  apply negb_true_iff, memb_not. rewrite (removed_ids O c Hv fits ty Ht x n Hx Ho) by auto. intros [K| ->]; [contradiction|]. eapply no_self; eauto.
Qed.
Lemma outs_allowed w : In w (t_outs c) -> allowed w.
Proof. intros J ->. rewrite <- (others_outside O c Hv fits ty Ht x n Hx Ho). unfold outside. apply existsb_exists. exists None. split; auto. apply in_links; auto. Qed.

Lemma apply_pack : apply_node r fresh x = if keep then [{| t_id := fresh; t_op := t_op x; t_args := t_args x |}] else [].
Proof. unfold apply_node. destruct r_is as [-> _]. simpl. rewrite Nat.eqb_refl. auto. Qed.
Lemma apply_us y : In y us -> apply_node r fresh y = [].
Proof.
  intros I. unfold apply_node. destruct r_is as [-> _]. simpl. destruct (Nat.eqb_spec (t_id y) (t_id x)) as [E|E].
  - exfalso. apply (x_not_us O c Hv fits ty Ht x n Hx Ho). pose proof (in_map t_id _ _ I) as Q. rewrite E in Q. exact Q.
  - replace (memb (t_id y) (map t_id (us ++ [x]))) with true; auto. symmetry. apply memb_in. rewrite map_app, in_app_iff. left. apply in_map; auto.
Qed.
Lemma apply_other y : In y (t_nodes c) -> ~ In y us -> y <> x -> apply_node r fresh y = [{| t_id := t_id y; t_op := t_op y; t_args := map red (t_args y) |}].
Proof.
  intros I N D. unfold apply_node. assert (K : memb (t_id y) (map t_id (us ++ [x])) = false) by (apply memb_not; rewrite (removed_ids O c Hv fits ty Ht x n Hx Ho) by auto; intros [?|?]; contradiction).
  assert (K' : rw_removed r = map t_id (us ++ [x]) /\ rw_pack r = x) by (rewrite (proj1 r_is); auto). destruct K' as [-> ->]. rewrite K.
  destruct (Nat.eqb_spec (t_id y) (t_id x)) as [E|E]; auto. exfalso. apply D, (ids_inj _ _ _ (va_ids Hv)); auto.
Qed.
Lemma in_us_dec y : In y (t_nodes c) -> {In y us} + {~ In y us}.
Proof.
  intros I. destruct (in_dec Nat.eq_dec (t_id y) (map t_id us)) as [J|J]; [left|right; intros K; apply J, in_map; auto].
  apply in_map_iff in J. destruct J as (z & E & J). rewrite <- (ids_inj _ z y (va_ids Hv)); auto. apply Hus; auto.
Qed.
Lemma node_cases y : In y (t_nodes c) -> y = x \/ In y us \/ (y <> x /\ ~ In y us).
Proof.
  intros I. destruct (in_us_dec y I) as [?|N]; auto. destruct (Nat.eq_dec (t_id y) (t_id x)) as [E|E]; [left; apply (ids_inj _ _ _ (va_ids Hv)); auto|].
  right. right. split; auto. intros ->. auto.
Qed.

(** ** Values exist *)
Notation new := (flat_map (apply_node r fresh)).
Lemma known_new a b : t_nodes c = a ++ b -> (forall w, known (t_inputs c) a w -> allowed w -> known (t_inputs c) (new a) (red w)) /\ (In x a -> forall w, In w (t_args x) -> known (t_inputs c) (new a) w).
Proof.
  revert b. induction a as [|y a IH] using rev_ind; intros b E.
  - split; [|intros []]. intros w [K|(? & ? & [] & _)] A. destruct K as (k & -> & L). left. exists k. split; auto. apply red_other; [|discriminate]. rewrite in_cand. intros (? & ? & _ & _ & ?); discriminate.
  - rewrite <- app_assoc in E. simpl in E. destruct (IH _ E) as [IH1 IH2]. rewrite flat_map_app. simpl. rewrite app_nil_r. assert (Iy : In y (t_nodes c)) by (rewrite E; apply in_or_app; right; left; auto).
    assert (Hargs : In x (a ++ [y]) -> forall w, In w (t_args x) -> known (t_inputs c) (new a) w).
    { intros I w J. apply in_app_or in I. destruct I as [I|[->|[]]]; [apply IH2; auto|]. destruct (x_args_plain w J) as (R & _ & N). rewrite <- R. apply IH1; [eapply va_order; eauto|intros ?; contradiction]. }
    split; [|intros; apply known_app; apply Hargs; auto]. intros w K A.
    assert (K' : known (t_inputs c) a w \/ exists j, w = Out (t_id y) j /\ j < num_outputs (t_op y)).
    { destruct K as [K|(z & j & I & -> & L)]; [left; left; auto|]. apply in_app_or in I. destruct I as [I|[->|[]]]; [left; right; exists z, j; auto|right; exists j; auto]. }
    destruct K' as [K'|(j & -> & L)]; [apply known_app; apply IH1; auto|]. destruct (node_cases y Iy) as [->|[I|[N1 N2]]].
    + rewrite Ho in L. simpl in L. assert (j = 0) by lia. subst j. pose proof (A eq_refl) as Kp. rewrite red_pack by auto. rewrite apply_pack, Kp. right. exists {| t_id := fresh; t_op := t_op x; t_args := t_args x |}, 0.
      split; [apply in_or_app; right; left; auto|]. simpl. rewrite Ho. auto.
    + destruct (Hus y I) as (_ & Oy & _). rewrite Oy in L. simpl in L. rewrite red_unpack by auto. rewrite (apply_us y I), app_nil_r. apply Hargs; [apply in_or_app; left; eapply us_after; eauto|]. apply nth_In. rewrite Hlen. auto.
    + rewrite (apply_other y) by auto. rewrite red_other.
      * right. exists {| t_id := t_id y; t_op := t_op y; t_args := map red (t_args y) |}, j. split; [apply in_or_app; right; left; auto|auto].
      * rewrite in_cand. intros (z & k & Iz & _ & [= Ez _]). apply N2. rewrite (ids_inj _ y z (va_ids Hv)); auto. apply Hus; auto.
      * intros [= Ez _]. exfalso. apply N1, (ids_inj _ _ _ (va_ids Hv)); auto.
Qed.
Lemma apply_short y : In y (t_nodes c) -> length (apply_node r fresh y) <= 1.
Proof. intros I. destruct (node_cases y I) as [->|[J|[N1 N2]]]; [rewrite apply_pack; destruct keep; auto|rewrite apply_us; auto|rewrite apply_other; auto]. Qed.
Lemma in_new y' : In y' (new (t_nodes c)) -> (y' = {| t_id := fresh; t_op := t_op x; t_args := t_args x |} /\ keep = true) \/
  exists y, In y (t_nodes c) /\ y <> x /\ ~ In y us /\ y' = {| t_id := t_id y; t_op := t_op y; t_args := map red (t_args y) |}.
Proof.
  intros I. apply in_flat_map in I. destruct I as (y & I & J). destruct (node_cases y I) as [->|[K|[N1 N2]]].
  - rewrite apply_pack in J. destruct keep; [destruct J as [<-|[]]; auto|destruct J].
  - rewrite apply_us in J by auto. destruct J.
  - rewrite apply_other in J by auto. destruct J as [<-|[]]. right. exists y. auto.
Qed.
Lemma new_ids l : incl l (t_nodes c) -> NoDup (map t_id l) -> NoDup (map t_id (new l)) /\ forall i, In i (map t_id (new l)) -> In i (map t_id l) \/ (i = fresh /\ In x l).
Proof.
  induction l as [|y l IH]; simpl; intros I D; [split; [constructor|intros i []]|]. apply NoDup_cons_iff in D. destruct D as [N D']. destruct (IH (fun z J => I z (or_intror J)) D') as [IH1 IH2].
  assert (Iy : In y (t_nodes c)) by (apply I; left; auto). rewrite map_app. destruct (node_cases y Iy) as [->|[K|[N1 N2]]].
  - rewrite apply_pack. destruct keep; simpl; [|split; auto; intros i J; destruct (IH2 i J) as [?|[? ?]]; auto]. split.
    + constructor; auto. intros J. destruct (IH2 _ J) as [J'|[_ J']]; [|apply N, in_map; auto]. apply Hf. apply in_map_iff in J'. destruct J' as (z & E & J'). rewrite <- E. apply in_map, I. right; auto.
    + intros i [<-|J]; auto. destruct (IH2 i J) as [?|[? ?]]; auto.
  - rewrite apply_us by auto. simpl. split; auto. intros i J; destruct (IH2 i J) as [?|[? ?]]; auto.
  - rewrite apply_other by auto. simpl. split.
    + constructor; auto. intros J. destruct (IH2 _ J) as [J'|[E _]]; auto. apply Hf. rewrite <- E. apply in_map; auto.
    + intros i [<-|J]; auto. destruct (IH2 i J) as [?|[? ?]]; auto.
Qed.
Theorem apply_valid : valid (apply c r fresh).
Proof.
  constructor; simpl.
  - apply new_ids; [apply incl_refl|apply (va_ids Hv)].
  - intros a y' b E w J. destruct (flat_map_split _ _ _ _ _ apply_short E) as (p & y & q & Ec & Fy & -> & ->).
    assert (Iy : In y (t_nodes c)) by (rewrite Ec; apply in_or_app; right; left; auto). destruct (known_new p (y :: q) Ec) as [K1 K2]. destruct (node_cases y Iy) as [->|[K|[N1 N2]]].
    + rewrite apply_pack in Fy. destruct keep; [|discriminate]. injection Fy as <-. simpl in J. destruct (x_args_plain w J) as (R & _ & N). rewrite <- R. apply K1; [eapply va_order; eauto|intros ?; contradiction].
    + rewrite apply_us in Fy by auto. discriminate.
    + rewrite apply_other in Fy by auto. injection Fy as <-. simpl in J. apply in_map_iff in J. destruct J as (v & <- & J). apply K1; [eapply va_order; eauto|eapply args_allowed; eauto].
  - intros w J. apply in_map_iff in J. destruct J as (v & <- & J). apply (proj1 (known_new (t_nodes c) [] (eq_sym (app_nil_r _)))); [eapply va_outs; eauto|apply outs_allowed; auto].
Qed.

(** ** Types *)
Definition new_ty (w : source) : typ := match w with Out m _ => if Nat.eqb m fresh then ty w0 else ty w | _ => ty w end.
Lemma new_ty_old w : (forall j, w <> Out fresh j) -> new_ty w = ty w.
Proof. unfold new_ty. destruct w as [|m j]; auto. destruct (Nat.eqb_spec m fresh) as [->|]; auto. intros H. exfalso. apply (H j). auto. Qed.
Lemma known_old a b w : t_nodes c = a ++ b -> known (t_inputs c) a w -> forall j, w <> Out fresh j.
Proof. intros E [(k & -> & _)|(z & k & I & -> & _)] j; [discriminate|]. intros [= F _]. apply Hf. rewrite <- F. apply in_map. rewrite E. apply in_or_app; auto. Qed.
Lemma use_old w : In w (all_uses c) -> forall j, w <> Out fresh j.
Proof.
  intros I. unfold all_uses in I. apply in_app_or in I. destruct I as [I|I].
  - apply in_flat_map in I. destruct I as (y & I & J). destruct (in_split _ _ I) as (a & b & E). eapply known_old; eauto. eapply va_order; eauto.
  - eapply (known_old (t_nodes c) []); [rewrite app_nil_r; auto|]. eapply va_outs; eauto.
Qed.
Lemma arg_use y w : In y (t_nodes c) -> In w (t_args y) -> In w (all_uses c).
Proof. intros I J. unfold all_uses. apply in_or_app. left. apply in_flat_map. exists y. auto. Qed.
Lemma pack_typed : ty w0 = Tuple (map ty (t_args x)).
Proof. pose proof (ty_nodes Ht x Hx) as T. unfold node_typed in T. rewrite Ho in T. apply T. Qed.
Lemma unpack_typed y j : In y us -> j < n -> ty (Out (t_id y) j) = ty (nth j (t_args x) (Out (t_id y) j)).
Proof.
  intros I J. destruct (Hus y I) as (Iy & Oy & Ey). pose proof (ty_nodes Ht y Iy) as T. unfold node_typed in T. rewrite Oy in T. destruct T as (w & ts & E & T & L & T'). rewrite Ey in E. injection E as <-.
  rewrite pack_typed in T. injection T as <-. rewrite (T' j (ty (Out (t_id y) j))) by auto. rewrite map_nth. auto.
Qed.
Lemma red_typed w : In w (all_uses c) -> new_ty (red w) = ty w.
Proof.
  intros I. destruct (red_cases w) as [[-> _]|[(-> & _ & ->)|(y & j & Iy & J & -> & E & Ia)]].
  - apply new_ty_old, use_old; auto.
  - simpl. rewrite Nat.eqb_refl. auto.
  - rewrite new_ty_old by (apply use_old; eapply arg_use; eauto). rewrite E. symmetry. apply unpack_typed; auto.
Qed.
Lemma map_red_typed l : incl l (all_uses c) -> map new_ty (map red l) = map ty l.
Proof. intros I. rewrite map_map. apply map_ext_in. intros w J. apply red_typed, I; auto. Qed.

(** Uses in the new region. *)
Definition rest_nodes : list node := filter (fun y => negb (memb (t_id y) (rw_removed r))) (t_nodes c).
Definition rest : list source := flat_map t_args rest_nodes ++ t_outs c.
Lemma rest_node y : In y (t_nodes c) -> negb (memb (t_id y) (rw_removed r)) = true <-> (y <> x /\ ~ In y us).
Proof.
  intros I. assert (K' : rw_removed r = map t_id (us ++ [x])) by (rewrite (proj1 r_is); auto). rewrite K', negb_true_iff, memb_not, (removed_ids O c Hv fits ty Ht x n Hx Ho) by auto. tauto.
Qed.
Lemma new_uses w : count_occ source_eq_dec (all_uses (apply c r fresh)) w = count_occ source_eq_dec (map red rest) w + (if keep then count_occ source_eq_dec (t_args x) w else 0).
Proof.
  unfold all_uses, rest, apply. simpl. rewrite map_app, !count_occ_app.
  assert (H : forall l, incl l (t_nodes c) -> NoDup (map t_id l) -> count_occ source_eq_dec (flat_map t_args (flat_map (apply_node r fresh) l)) w =
    count_occ source_eq_dec (map red (flat_map t_args (filter (fun y => negb (memb (t_id y) (rw_removed r))) l))) w + (if in_dec Nat.eq_dec (t_id x) (map t_id l) then (if keep then count_occ source_eq_dec (t_args x) w else 0) else 0)).
  { induction l as [|y l IH]; intros I D; [auto|]. simpl map in D. apply NoDup_cons_iff in D. destruct D as [N D']. specialize (IH (fun z J => I z (or_intror J)) D').
    change (flat_map (apply_node r fresh) (y :: l)) with (apply_node r fresh y ++ flat_map (apply_node r fresh) l). rewrite flat_map_app, count_occ_app, IH. clear IH.
    assert (Iy : In y (t_nodes c)) by (apply I; left; auto). change (map t_id (y :: l)) with (t_id y :: map t_id l). simpl filter. destruct (negb (memb (t_id y) (rw_removed r))) eqn:R.
    - destruct (proj1 (rest_node y Iy) R) as [N1 N2]. rewrite (apply_other y) by auto. simpl. rewrite app_nil_r, map_app, count_occ_app.
      destruct (Nat.eq_dec (t_id y) (t_id x)) as [E|E]; [exfalso; apply N1, (ids_inj _ _ _ (va_ids Hv)); auto|]. destruct (in_dec Nat.eq_dec (t_id x) (map t_id l)); lia.
    - destruct (node_cases y Iy) as [->|[K|K]]; [| |apply (rest_node y Iy) in K; congruence].
      + rewrite apply_pack. destruct (in_dec Nat.eq_dec (t_id x) (map t_id l)); [contradiction|]. destruct (in_dec Nat.eq_dec (t_id x) (t_id x :: map t_id l)) as [_|F]; [|exfalso; apply F; left; auto].
        destruct keep; simpl; rewrite ?app_nil_r; lia.
      + rewrite apply_us by auto. simpl count_occ at 1. destruct (in_dec Nat.eq_dec (t_id x) (t_id y :: map t_id l)) as [[E|F]|F].
        * exfalso. apply (x_not_us O c Hv fits ty Ht x n Hx Ho). pose proof (in_map t_id _ _ K) as Q. rewrite E in Q. exact Q.
        * destruct (in_dec Nat.eq_dec (t_id x) (map t_id l)); [lia|contradiction].
        * destruct (in_dec Nat.eq_dec (t_id x) (map t_id l)); [exfalso; apply F; right; auto|lia]. }
  rewrite H; [|apply incl_refl|apply (va_ids Hv)]. destruct (in_dec Nat.eq_dec (t_id x) (map t_id (t_nodes c))) as [_|F]; [|exfalso; apply F, in_map; auto]. unfold rest_nodes. lia.
Qed.
Lemma rest_count w : count_occ source_eq_dec rest w + count_occ source_eq_dec (t_args x) w + (if source_eq_dec w0 w then length us else 0) <= count_occ source_eq_dec (all_uses c) w.
Proof.
  unfold all_uses, rest. rewrite !count_occ_app.
  assert (H : count_occ source_eq_dec (flat_map t_args rest_nodes) w + count_occ source_eq_dec (t_args x) w + (if source_eq_dec w0 w then length us else 0) <= count_occ source_eq_dec (flat_map t_args (t_nodes c)) w); [|lia].
  unfold rest_nodes. rewrite (unpack_nodes_filter O c fits ty Ht).
  assert (G : forall l, incl l (t_nodes c) -> NoDup (map t_id l) -> count_occ source_eq_dec (flat_map t_args (filter (fun y => negb (memb (t_id y) (rw_removed r))) l)) w +
    (if in_dec Nat.eq_dec (t_id x) (map t_id l) then count_occ source_eq_dec (t_args x) w else 0) + (if source_eq_dec w0 w then length (filter (unpacks O w0) l) else 0) <= count_occ source_eq_dec (flat_map t_args l) w).
  { induction l as [|y l IH]; intros I D; [destruct (source_eq_dec w0 w); simpl; lia|]. simpl map in D. apply NoDup_cons_iff in D. destruct D as [N D']. specialize (IH (fun z J => I z (or_intror J)) D').
    assert (Iy : In y (t_nodes c)) by (apply I; left; auto). simpl flat_map at 2. rewrite count_occ_app. change (map t_id (y :: l)) with (t_id y :: map t_id l). simpl filter.
    assert (U : unpacks O w0 y = true <-> In y us). { rewrite (unpack_nodes_filter O c fits ty Ht), filter_In. tauto. }
    destruct (node_cases y Iy) as [->|[K|K]].
    - destruct (negb (memb (t_id x) (rw_removed r))) eqn:R; [apply (rest_node x Hx) in R; tauto|]. destruct (unpacks O w0 x) eqn:Ux; [exfalso; destruct (Hus x (proj1 U eq_refl)) as (_ & Q & _); congruence|].
      destruct (in_dec Nat.eq_dec (t_id x) (map t_id l)); [contradiction|]. destruct (in_dec Nat.eq_dec (t_id x) (t_id x :: map t_id l)); lia.
    - destruct (negb (memb (t_id y) (rw_removed r))) eqn:R; [apply (rest_node y Iy) in R; tauto|]. rewrite (proj2 U K). destruct (Hus y K) as (_ & _ & Ey). rewrite Ey. cbn [count_occ length].
      assert (F : t_id y <> t_id x) by (intros E; apply (x_not_us O c Hv fits ty Ht x n Hx Ho); pose proof (in_map t_id _ _ K) as Q; rewrite E in Q; exact Q).
      destruct (in_dec Nat.eq_dec (t_id x) (t_id y :: map t_id l)) as [[?|?]|M]; [congruence| |].
      + destruct (in_dec Nat.eq_dec (t_id x) (map t_id l)); [|contradiction]. destruct (source_eq_dec w0 w); lia.
      + destruct (in_dec Nat.eq_dec (t_id x) (map t_id l)); [exfalso; apply M; right; auto|]. destruct (source_eq_dec w0 w); lia.
    - rewrite (proj2 (rest_node y Iy) K). destruct K as [N1 N2]. simpl flat_map at 1. rewrite count_occ_app. destruct (unpacks O w0 y); [exfalso; tauto|].
      assert (F : t_id y <> t_id x) by (intros E; apply N1, (ids_inj _ _ _ (va_ids Hv)); auto).
      destruct (in_dec Nat.eq_dec (t_id x) (t_id y :: map t_id l)) as [[?|?]|M]; [congruence| |].
      + destruct (in_dec Nat.eq_dec (t_id x) (map t_id l)); [lia|contradiction].
      + destruct (in_dec Nat.eq_dec (t_id x) (map t_id l)); [exfalso; apply M; right; auto|lia]. }
  specialize (G (t_nodes c) (incl_refl _) (va_ids Hv)). destruct (in_dec Nat.eq_dec (t_id x) (map t_id (t_nodes c))) as [_|F]; [auto|exfalso; apply F, in_map; auto].
Qed.
Lemma rest_use w : In w rest -> In w (all_uses c).
Proof.
  unfold rest, all_uses. rewrite !in_app_iff. intros [I|I]; auto. left. apply in_flat_map in I. destruct I as (y & I & J). apply filter_In in I. apply in_flat_map. exists y. split; auto. apply I.
Qed.
Lemma others_zero : length us = 1 -> count_occ source_eq_dec (all_uses c) w0 <= 1 -> keep = false.
Proof.
  intros L C. destruct (bool_dec keep true) as [K|K]; [|apply not_true_is_false; auto]. exfalso. apply Nat.ltb_lt in K.
  assert (E : length (links c w0) = count_occ source_eq_dec (all_uses c) w0).
  { unfold links, all_uses. rewrite app_length, count_occ_app, repeat_length. f_equal. generalize (t_nodes c). induction l as [|y l IH]; simpl; auto. rewrite app_length, count_occ_app, repeat_length, IH. auto. }
  lia.
Qed.
Lemma exists_linear_arg w : linear_type (ty w0) = false -> In w (t_args x) -> linear_type (ty w) = false.
Proof.
  rewrite pack_typed. simpl. intros E I. destruct (linear_type (ty w)) eqn:L; auto. rewrite <- E. symmetry. apply existsb_exists. exists (ty w). split; auto. apply in_map; auto.
Qed.
Lemma us_len : length us >= 1.
Proof. pose proof us_ne. destruct us; [congruence|simpl; lia]. Qed.
Lemma new_once w : linear_type (new_ty w) = true -> count_occ source_eq_dec (all_uses (apply c r fresh)) w <= 1.
Proof.
  intros L. rewrite new_uses. pose proof us_len as Lu. destruct (linear_type (ty w0)) eqn:L0.
  - pose proof (ty_once Ht w0 L0) as C0. pose proof (rest_count w0) as R0. destruct (source_eq_dec w0 w0) as [_|?]; [|congruence].
    assert (L1 : length us = 1) by lia. rewrite (others_zero L1 C0). rewrite Nat.add_0_r. destruct (in_dec source_eq_dec w (t_args x)) as [I|I].
    + assert (Lw : linear_type (ty w) = true) by (rewrite <- L; f_equal; symmetry; apply new_ty_old, use_old; eapply arg_use; eauto).
      pose proof (ty_once Ht w Lw) as C. pose proof (rest_count w) as R. pose proof (proj1 (count_occ_In source_eq_dec _ _) I) as P.
      destruct (In_nth _ _ w0 I) as (k & Lk & Ek). rewrite Hlen in Lk. assert (Hu : exists u, us = [u]) by (generalize L1; generalize us; intros [|u [|]]; simpl; try discriminate; eauto). destruct Hu as (u & Eu).
      transitivity (count_occ source_eq_dec rest (Out (t_id u) k)).
      * apply count_map_le. intros v Iv Ev. destruct (red_cases v) as [[E N]|[(_ & K & _)|(y & j & Iy & J & -> & E & Ia)]].
        -- exfalso. rewrite E in Ev. subst v. apply (count_occ_In source_eq_dec) in Iv. lia.
        -- exfalso. rewrite (others_zero L1 C0) in K. discriminate.
        -- rewrite Eu in Iy. destruct Iy as [->|[]]. f_equal. rewrite Ev in E. assert (Hn : NoDup (t_args x) \/ True) by auto. destruct (Nat.eq_dec j k) as [|Nj]; auto. exfalso.
           assert (Q : count_occ source_eq_dec (t_args x) w >= 2).
           { rewrite (nth_indep _ _ w0) in E by (rewrite Hlen; auto). revert Nj E Ek Lk J. rewrite <- Hlen. generalize (t_args x). clear. intros l. revert j k. induction l as [|v l IH]; simpl; intros j k Nj E Ek Lk J; [lia|].
             destruct j as [|j], k as [|k]; [lia| | |].
             - subst v. destruct (source_eq_dec w w); [|congruence]. assert (In w l) by (rewrite <- Ek; apply nth_In; lia). apply (count_occ_In source_eq_dec) in H. lia.
             - subst v. destruct (source_eq_dec w w); [|congruence]. assert (In w l) by (rewrite E; apply nth_In; lia). apply (count_occ_In source_eq_dec) in H. lia.
             - specialize (IH j k). destruct (source_eq_dec v w); [|]; assert (count_occ source_eq_dec l w >= 2) by (apply IH; auto; lia); lia. }
           lia.
      * assert (Iu : In u us) by (rewrite Eu; left; auto). assert (Lv : linear_type (ty (Out (t_id u) k)) = true). { rewrite unpack_typed by auto. rewrite (nth_indep _ _ w0) by (rewrite Hlen; auto). rewrite Ek. auto. }
        pose proof (ty_once Ht _ Lv). pose proof (rest_count (Out (t_id u) k)). lia.
    + transitivity (count_occ source_eq_dec rest w).
      * apply count_map_le. intros v Iv Ev. destruct (red_cases v) as [[E N]|[(_ & K & _)|(y & j & Iy & J & -> & E & Ia)]]; [congruence| |rewrite Ev in Ia; contradiction].
        exfalso. rewrite (others_zero L1 C0) in K. discriminate.
      * destruct (in_dec source_eq_dec w rest) as [J|J]; [|rewrite (proj1 (count_occ_not_In _ _ _) J); lia]. rewrite new_ty_old in L by (apply use_old, rest_use; auto). pose proof (ty_once Ht w L). pose proof (rest_count w). lia.
  - destruct (in_dec source_eq_dec w (t_args x)) as [I|I].
    + exfalso. rewrite new_ty_old in L by (apply use_old; eapply arg_use; eauto). rewrite exists_linear_arg in L; auto. discriminate.
    + rewrite (proj1 (count_occ_not_In source_eq_dec _ _) I). replace (if keep then 0 else 0) with 0 by (destruct keep; auto). rewrite Nat.add_0_r.
      transitivity (count_occ source_eq_dec rest w).
      * apply count_map_le. intros v Iv Ev. destruct (red_cases v) as [[E N]|[(_ & K & E)|(y & j & Iy & J & -> & E & Ia)]]; [congruence| |rewrite Ev in Ia; contradiction].
        exfalso. rewrite <- Ev, E in L. simpl in L. rewrite Nat.eqb_refl in L. congruence.
      * destruct (in_dec source_eq_dec w rest) as [J|J]; [|rewrite (proj1 (count_occ_not_In _ _ _) J); lia]. rewrite new_ty_old in L by (apply use_old, rest_use; auto). pose proof (ty_once Ht w L). pose proof (rest_count w). lia.
Qed.
Theorem apply_typed : typed fits new_ty (apply c r fresh) /\ map new_ty (t_outs (apply c r fresh)) = map ty (t_outs c) /\ (forall k, new_ty (Inp k) = ty (Inp k)).
Proof.
  split; [constructor|split].
  - simpl. intros y' I. destruct (in_new y' I) as [(-> & K)|(y & J & N1 & N2 & ->)].
    + unfold node_typed. simpl. rewrite Ho. split; [exact Hlen|]. rewrite Nat.eqb_refl, pack_typed. f_equal. apply map_ext_in. intros w Iw. symmetry. apply new_ty_old, use_old. eapply arg_use; eauto.
    + pose proof (ty_nodes Ht y J) as T. unfold node_typed in *. simpl.
      assert (Hown : forall j, new_ty (Out (t_id y) j) = ty (Out (t_id y) j)) by (intros j; apply new_ty_old; intros k [= E _]; apply Hf; rewrite <- E; apply in_map; auto).
      assert (Ha : map new_ty (map red (t_args y)) = map ty (t_args y)) by (apply map_red_typed; intros w; apply arg_use; auto).
      destruct (t_op y) as [m|m|o m].
      * rewrite map_length, Ha. simpl in Hown. rewrite (Hown 0). auto.
      * destruct T as (w & ts & E & T & Lt & T'). exists (red w), ts. rewrite E in *. simpl in Ha. injection Ha as Ha. rewrite Ha. repeat split; auto. intros j d Lj. simpl in Hown. rewrite (Hown j). auto.
      * rewrite Ha. rewrite (map_ext _ _ Hown). auto.
  - apply new_once.
  - simpl. apply map_red_typed. intros w I. unfold all_uses. apply in_or_app; auto.
  - auto.
Qed.

(** ** Values *)
Variables V G : Type.
Variable pack : list V -> V.
Variable unpack : V -> list V.
Hypothesis unpack_pack : forall l, unpack (pack l) = l.
Variable sem : O -> list V -> G -> list V * G.
Variable dummy : V.
Notation ex := (fold_left (fun s y => exec pack unpack sem dummy y s)).
Notation set := (set_outs V dummy).
Variable s0 : (source -> V) * G.
Lemma set_own m vs e j : set m vs e (Out m j) = nth j vs dummy.
Proof. simpl. rewrite Nat.eqb_refl. auto. Qed.
Lemma set_other m vs e w : (forall j, w <> Out m j) -> set m vs e w = e w.
Proof. intros H. unfold set_outs. destruct w as [|k j]; auto. destruct (Nat.eqb_spec k m) as [->|]; auto. exfalso. apply (H j); auto. Qed.
Lemma known_not_out a b y w j : t_nodes c = a ++ y :: b -> known (t_inputs c) a w -> w <> Out (t_id y) j.
Proof. intros E K ->. eapply known_own; eauto. Qed.
Lemma same_values a b : t_nodes c = a ++ b -> let s := ex a s0 in let s' := ex (new a) s0 in
  snd s = snd s' /\ (forall w, known (t_inputs c) a w -> allowed w -> fst s' (red w) = fst s w) /\
  (In x a -> fst s w0 = pack (map (fst s) (t_args x)) /\ forall w, In w (t_args x) -> fst s' w = fst s w).
Proof.
  revert b. induction a as [|y a IH] using rev_ind; intros b E; cbv zeta.
  - simpl. split; auto. split; [|intros []]. intros w [(k & -> & L)|(? & ? & [] & _)] A. rewrite red_other; auto; [|discriminate]. rewrite in_cand. intros (? & ? & _ & _ & ?); discriminate.
  - rewrite <- app_assoc in E. simpl in E. destruct (IH _ E) as (Hg & He & Hp). clear IH. rewrite flat_map_app, !fold_left_app. simpl flat_map. rewrite app_nil_r.
    assert (Iy : In y (t_nodes c)) by (rewrite E; apply in_or_app; right; left; auto).
    destruct (ex a s0) as [e g]. destruct (ex (new a) s0) as [e' g']. simpl fst in *. simpl snd in *. subst g'.
    assert (Hsplit : forall w, known (t_inputs c) (a ++ [y]) w -> known (t_inputs c) a w \/ exists j, w = Out (t_id y) j /\ j < num_outputs (t_op y)).
    { intros w [K|(z & j & I & -> & L)]; [left; left; auto|]. apply in_app_or in I. destruct I as [I|[->|[]]]; [left; right; exists z, j; auto|right; exists j; auto]. }
    assert (Hnf : forall w, known (t_inputs c) a w -> forall j, w <> Out fresh j) by (intros w K; eapply known_old; eauto).
    destruct (node_cases y Iy) as [->|[K|[N1 N2]]].
    + rewrite apply_pack.
      assert (Hargs : forall w, In w (t_args x) -> known (t_inputs c) a w /\ e' w = e w).
      { intros w J. assert (Kw : known (t_inputs c) a w) by (eapply va_order; eauto). split; auto. destruct (x_args_plain w J) as (R & _ & N). rewrite <- R at 1. apply He; auto. intros ?; contradiction. }
      destruct (bool_dec keep true) as [Kp|Kp].
      * rewrite Kp. cbn [fold_left]. unfold exec. cbn [t_op t_id t_args]. rewrite Ho. cbn [fst snd]. split; auto. split.
        -- intros w Kw A. destruct (Hsplit w Kw) as [Ka|(j & -> & L)].
           ++ rewrite (set_other (t_id x)) by (intros j; eapply known_not_out; eauto). rewrite set_other; auto. intros j F. destruct (red_cases w) as [[R _]|[(-> & _)|(u & i & Iu & _ & _ & _ & Ia)]].
              ** rewrite R in F. eapply Hnf; eauto.
              ** eapply known_own; eauto.
              ** rewrite F in Ia. eapply Hnf; [|reflexivity]. apply Hargs. eauto.
           ++ rewrite Ho in L. simpl in L. assert (j = 0) by lia. subst j. rewrite red_pack by auto. rewrite !set_own. simpl. f_equal. apply map_ext_in. intros w J. apply Hargs; auto.
        -- intros _. assert (Hs : forall w, In w (t_args x) -> set (t_id x) [pack (map e (t_args x))] e w = e w) by (intros w J; apply set_other; intros j; eapply known_not_out; eauto; apply Hargs; auto). split.
           ++ rewrite set_own. simpl. f_equal. apply map_ext_in. intros w J. symmetry. auto.
           ++ intros w J. rewrite Hs by auto. rewrite set_other; [apply Hargs; auto|]. apply Hnf, Hargs; auto.
      * rewrite (not_true_is_false _ Kp). cbn [fold_left]. unfold exec. rewrite Ho. cbn [fst snd]. split; auto. split.
        -- intros w Kw A. destruct (Hsplit w Kw) as [Ka|(j & -> & L)].
           ++ rewrite (set_other (t_id x)) by (intros j; eapply known_not_out; eauto). auto.
           ++ rewrite Ho in L. simpl in L. assert (j = 0) by lia. subst j. exfalso. apply Kp, A; auto.
        -- intros _. assert (Hs : forall w, In w (t_args x) -> set (t_id x) [pack (map e (t_args x))] e w = e w) by (intros w J; apply set_other; intros j; eapply known_not_out; eauto; apply Hargs; auto). split.
           ++ rewrite set_own. simpl. f_equal. apply map_ext_in. intros w J. symmetry. auto.
           ++ intros w J. rewrite Hs by auto. apply Hargs; auto.
    + destruct (Hus y K) as (_ & Oy & Ey). pose proof (us_after a y b E K) as Ix. destruct (Hp Ix) as [Hpk Hpa]. rewrite (apply_us y K). cbn [fold_left]. unfold exec. rewrite Oy, Ey. cbn [fst snd nth]. rewrite Hpk, unpack_pack.
      assert (Hka : forall w, In w (t_args x) -> known (t_inputs c) a w).
      { intros w J. destruct (in_split _ _ Ix) as (a1 & a2 & ->). apply known_app. rewrite <- app_assoc in E. eapply va_order; eauto. }
      assert (Hkw : known (t_inputs c) a w0) by (eapply va_order; eauto; rewrite Ey; left; auto).
      split; auto. split.
      * intros w Kw A. destruct (Hsplit w Kw) as [Ka|(j & -> & L)].
        -- rewrite set_other by (intros j; eapply known_not_out; eauto). auto.
        -- rewrite Oy in L. simpl in L. rewrite red_unpack, set_own by auto. rewrite Hpa by (apply nth_In; rewrite Hlen; auto). rewrite (nth_indep _ dummy (e (Out (t_id y) j))) by (rewrite map_length, Hlen; auto). rewrite map_nth. auto.
      * intros _. assert (Hs : forall w, In w (t_args x) -> set (t_id y) (map e (t_args x)) e w = e w) by (intros w J; apply set_other; intros j; eapply known_not_out; eauto). split.
        -- rewrite set_other by (intros j; eapply known_not_out; eauto). rewrite Hpk. f_equal. apply map_ext_in. intros w J. symmetry. auto.
        -- intros w J. rewrite Hs; auto.
    + rewrite (apply_other y) by auto. cbn [fold_left].
      assert (Hvals : map e' (map red (t_args y)) = map e (t_args y)).
      { rewrite map_map. apply map_ext_in. intros w J. apply He; [eapply va_order; eauto|eapply args_allowed; eauto]. }
      assert (Hka : In x (a ++ [y]) -> In x a) by (intros I; apply in_app_or in I; destruct I as [?|[?|[]]]; auto; congruence).
      assert (Hkargs : In x a -> forall w, In w (t_args x) -> known (t_inputs c) a w).
      { intros Ix w J. destruct (in_split _ _ Ix) as (a1 & a2 & ->). apply known_app. rewrite <- app_assoc in E. eapply va_order; eauto. }
      assert (Hred : forall w j, known (t_inputs c) a w -> red w <> Out (t_id y) j).
      { intros w j Ka F. destruct (red_cases w) as [[R _]|[(_ & _ & R)|(u & i & Iu & _ & -> & _ & Ia)]].
        - rewrite R in F. eapply known_not_out; eauto.
        - rewrite R in F. injection F as F _. apply Hf. rewrite F. apply in_map; auto.
        - rewrite F in Ia. assert (Iua : In u a).
          { destruct Ka as [(? & ? & _)|(z & k & Iz & [= Ez _] & _)]; [discriminate|]. rewrite (ids_inj _ u z (va_ids Hv)); auto; [apply Hus; auto|rewrite E; apply in_or_app; auto]. }
          destruct (in_split _ _ Iua) as (a1 & a2 & E2). assert (Ix : In x a). { rewrite E2, <- app_assoc in E. pose proof (us_after _ _ _ E Iu). rewrite E2. apply in_or_app; auto. }
          apply (known_own O c Hv a y b j E). apply Hkargs; auto. }
      assert (Hmain : forall (vs : list V) (g1 : G), snd (set (t_id y) vs e, g1) = snd (set (t_id y) vs e', g1) /\
        (forall w, known (t_inputs c) (a ++ [y]) w -> allowed w -> set (t_id y) vs e' (red w) = set (t_id y) vs e w) /\
        (In x (a ++ [y]) -> set (t_id y) vs e w0 = pack (map (set (t_id y) vs e) (t_args x)) /\ forall w, In w (t_args x) -> set (t_id y) vs e' w = set (t_id y) vs e w)).
      { intros vs g1. split; auto. split.
        - intros w Kw A. destruct (Hsplit w Kw) as [Ka|(j & -> & L)].
          + rewrite !set_other by (intros j; auto; eapply known_not_out; eauto). auto.
          + rewrite red_other; [rewrite !set_own; auto| |].
            * rewrite in_cand. intros (z & k & Iz & _ & [= Ez _]). apply N2. rewrite (ids_inj _ y z (va_ids Hv)); auto. apply Hus; auto.
            * intros [= Ez _]. exfalso. apply N1, (ids_inj _ _ _ (va_ids Hv)); auto.
        - intros Ix. apply Hka in Ix. destruct (Hp Ix) as [Hpk Hpa]. assert (Hs : forall w e1, In w (t_args x) -> set (t_id y) vs e1 w = e1 w) by (intros w e1 J; apply set_other; intros j; eapply known_not_out; eauto). split.
          + rewrite set_other by (intros j [= F _]; apply N1, (ids_inj _ _ _ (va_ids Hv)); auto). rewrite Hpk. f_equal. apply map_ext_in. intros w J. symmetry. auto.
          + intros w J. rewrite !Hs; auto. }
      unfold exec. cbn [t_op t_id t_args]. destruct (t_op y) as [m|m|o m] eqn:Oy.
      * rewrite Hvals. apply (Hmain _ g).
      * pose proof (ty_nodes Ht y Iy) as T. unfold node_typed in T. rewrite Oy in T. destruct T as (w & ts & Ew & _). rewrite Ew in Hvals |- *. cbn [map nth] in Hvals |- *. injection Hvals as ->. apply (Hmain _ g).
      * rewrite Hvals. destruct (sem o (map e (t_args y)) g) as [vs g1]. apply (Hmain _ g1).
Qed.
End Sim.

Section Main.
Variable O : Type.
Variable fits : O -> list typ -> list typ -> Prop.
Variables V G : Type.
Variable pack : list V -> V.
Variable unpack : V -> list V.
Hypothesis unpack_pack : forall l, unpack (pack l) = l.
Variable sem : O -> list V -> G -> list V * G.
Variable dummy : V.
Theorem apply_results (c : region O) ty x r fresh : valid c -> typed fits ty c -> In x (t_nodes c) -> make_rewrite c x = Rewrite r -> ~ In fresh (map t_id (t_nodes c)) ->
  forall inputs g, results pack unpack sem dummy (apply c r fresh) inputs g = results pack unpack sem dummy c inputs g.
Proof.
  intros Hv Ht Hx Hr Hf inputs g. assert (exists n, t_op x = MakeTuple n) as (n & Ho) by (unfold make_rewrite in Hr; destruct (t_op x); try discriminate; eauto).
  pose proof (same_values O c Hv fits ty Ht x n Hx Ho r Hr fresh Hf V G pack unpack unpack_pack sem dummy (fun w => match w with Inp k => inputs k | _ => dummy end, g) (t_nodes c) [] (eq_sym (app_nil_r _))) as (Hg & He & _).
  unfold results, apply. cbn [t_nodes t_outs]. f_equal; [|auto]. rewrite map_map. apply map_ext_in. intros w I. apply He; [eapply va_outs; eauto|eapply outs_allowed; eauto].
Qed.
End Main.
