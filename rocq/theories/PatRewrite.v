(** Proofs about rewriting: replacing a part of a circuit by an interchangeable one. *)
From Coq Require Import List Bool Arith Lia Permutation.
From Verif Require Import PatSpec PatModel PatProofs.
Import ListNotations.

Lemma filter_split {A} (q : A -> bool) l : forall a x b, filter q l = a ++ x :: b -> exists a' b', l = a' ++ x :: b' /\ a = filter q a' /\ b = filter q b' /\ q x = true.
Proof.
  induction l as [|y l IH]; intros a x b E; cbn [filter] in E; [destruct a; discriminate|]. destruct (q y) eqn:Qy.
  - destruct a as [|z a]; cbn [app] in E; injection E as -> E.
    + exists [], l. auto.
    + destruct (IH _ _ _ E) as (a' & b' & -> & -> & -> & Q). exists (z :: a'), b'. cbn [filter]. rewrite Qy. auto.
  - destruct (IH _ _ _ E) as (a' & b' & -> & -> & -> & Q). exists (y :: a'), b'. cbn [filter]. rewrite Qy. auto.
Qed.
Lemma app_split {A} (l m : list A) : forall a x b, l ++ m = a ++ x :: b -> (exists b', l = a ++ x :: b' /\ b = b' ++ m) \/ (exists a', a = l ++ a' /\ m = a' ++ x :: b).
Proof.
  induction l as [|y l IH]; intros a x b E; cbn [app] in E; [right; exists a; auto|]. destruct a as [|z a]; cbn [app] in E; injection E as -> E.
  - left. exists l. auto.
  - destruct (IH _ _ _ E) as [(b' & -> & ->)|(a' & -> & ->)]; [left|right]; eexists; split; reflexivity.
Qed.
Lemma nodup_fst {A} (l : list (nat * A)) x y : NoDup (map fst l) -> In x l -> In y l -> fst x = fst y -> x = y.
Proof.
  intros N Hx Hy E. induction l as [|z l IH]; [contradiction|]. inversion N as [|? ? N1 N2]; subst. destruct Hx as [->|Hx], Hy as [->|Hy]; auto.
  - exfalso. apply N1. rewrite E. apply in_map; auto.
  - exfalso. apply N1. rewrite <- E. apply in_map; auto.
Qed.
Lemma nodup_filter_map {A} (q : nat * A -> bool) l : NoDup (map fst l) -> NoDup (map fst (filter q l)).
Proof.
  induction l as [|x l IH]; cbn [map filter]; auto. intros N. inversion N as [|? ? N1 N2]; subst. destruct (q x); cbn [map]; auto. constructor; auto. intros H. apply N1. apply in_map_iff in H. destruct H as (y & E & H). apply filter_In in H. rewrite <- E. apply in_map. tauto.
Qed.
Lemma nodup_app {A} (l m : list A) : NoDup l -> NoDup m -> (forall x, In x l -> ~ In x m) -> NoDup (l ++ m).
Proof.
  induction l as [|x l IH]; cbn [app]; auto. intros N M D. inversion N as [|? ? N1 N2]; subst. constructor.
  - intros H. apply in_app_or in H. destruct H as [H|H]; auto. apply (D x); auto. now left.
  - apply IH; auto. intros y Hy. apply D. now right.
Qed.
Lemma position_some w l : forall k, position w l = Some k -> nth_error l k = Some w.
Proof.
  induction l as [|v l IH]; intros k E; cbn [position] in E; [discriminate|]. destruct (source_eq_dec w v) as [->|]; [injection E as <-; reflexivity|].
  destruct (position w l) as [j|]; [|discriminate]. injection E as <-. cbn. auto.
Qed.
Lemma position_none w l : position w l = None -> ~ In w l.
Proof.
  induction l as [|v l IH]; intros E; cbn [position] in E; [intros []|]. destruct (source_eq_dec w v) as [->|]; [discriminate|]. destruct (position w l); [discriminate|]. intros [->|H]; [congruence|]. apply IH; auto.
Qed.

Lemma count_map_le {A B} (da : forall x y : A, {x = y} + {x <> y}) (db : forall x y : B, {x = y} + {x <> y}) (h : A -> B) w v0 xs :
  (forall v, In v xs -> h v = w -> v = v0) -> count_occ db (map h xs) w <= count_occ da xs v0.
Proof.
  induction xs as [|x xs IH]; intros U; cbn [map count_occ]; [lia|]. assert (IH' := IH (fun v H => U v (or_intror H))).
  destruct (db (h x) w) as [E|E]; [rewrite (U x (or_introl eq_refl) E)|]; destruct (da _ _); try lia. congruence.
Qed.
Lemma count_two {A B} (db : forall x y : B, {x = y} + {x <> y}) (h : A -> B) w xs : forall a b, a <> b -> In a xs -> In b xs -> h a = w -> h b = w -> 2 <= count_occ db (map h xs) w.
Proof.
  induction xs as [|x xs IH]; intros a b N Ha Hb Ea Eb; [contradiction|]. cbn [map count_occ].
  assert (Q : forall y, In y xs -> h y = w -> 1 <= count_occ db (map h xs) w) by (intros y Hy E; apply count_occ_In; rewrite <- E; apply in_map; auto).
  destruct (db (h x) w) as [E|E].
  - destruct Ha as [->|Ha], Hb as [->|Hb]; [congruence| | |]; apply le_n_S; eauto.
  - destruct Ha as [->|Ha]; [congruence|]. destruct Hb as [->|Hb]; [congruence|]. eauto.
Qed.
Lemma count_index {A} (da : forall x y : A, {x = y} + {x <> y}) u l : forall a b, count_occ da l u <= 1 -> nth_error l a = Some u -> nth_error l b = Some u -> a = b.
Proof.
  induction l as [|x l IH]; intros a b Hc Ha Hb; [destruct a; discriminate|]. cbn [count_occ] in Hc.
  destruct a as [|a], b as [|b]; cbn in Ha, Hb; auto.
  - injection Ha as ->. destruct (da u u); [|congruence]. apply nth_error_In in Hb. apply (count_occ_In da) in Hb. lia.
  - injection Hb as ->. destruct (da u u); [|congruence]. apply nth_error_In in Ha. apply (count_occ_In da) in Ha. lia.
  - f_equal. apply IH; auto. destruct (da x u); lia.
Qed.
Lemma find_id {A} (l : list (nat * A)) x : NoDup (map fst l) -> In x l -> find (fun y => Nat.eqb (fst y) (fst x)) l = Some x.
Proof.
  intros N H. destruct (find _ l) as [y|] eqn:F.
  - apply find_some in F. destruct F as [Hy E]. apply Nat.eqb_eq in E. f_equal. apply (nodup_fst l); auto.
  - exfalso. apply (find_none _ _ F) in H. rewrite Nat.eqb_refl in H. discriminate.
Qed.

Section Rewrite.
Variable Op : Type.
Variables ain aout : Op -> nat.
Variables lin lout : Op -> nat -> bool.
Variable I : interp Op ain aout lin lout.
Notation circuit := (circuit Op).
Notation schedule := (schedule ain aout lin).
Notation ordered := (ordered ain aout).
Notation known := (known aout).
Notation linear_once := (linear_once ain lin).
Notation linear_ins := (linear_ins ain lin).
Notation ins := (ins ain).
Notation outs := (outs aout).
Notation action_of := (action_of ain aout).
Notation run := (run I).
Notation like := (like I).
Notation linear_inputs := (linear_inputs ain lin).

Lemma linear_once_perm c l m : Permutation l m -> linear_once c l -> linear_once c m.
Proof.
  intros P L x w Hx Hw a b E. assert (Pu : Permutation (uses ain c l) (uses ain c m)) by (apply Permutation_app_tail; apply Permutation_flat_map; auto).
  assert (Hx' : In x l) by (eapply Permutation_in; [apply Permutation_sym; exact P|auto]).
  destruct (in_split w (uses ain c l)) as (u & v & E').
  { apply in_or_app. left. apply in_flat_map. exists x. split; auto. apply (linear_in Op ain lin). auto. }
  destruct (L x w Hx' Hw _ _ E') as [W1 W2]. rewrite E, E' in Pu.
  assert (Pv : Permutation (u ++ v) (a ++ b)). { apply Permutation_cons_inv with (a := w). eapply Permutation_trans; [apply Permutation_middle|]. eapply Permutation_trans; [exact Pu|apply Permutation_sym, Permutation_middle]. }
  apply Permutation_sym in Pv. split; intros Hin; (assert (X : In w (u ++ v)) by (eapply Permutation_in; [exact Pv|]; apply in_or_app; auto)); apply in_app_or in X; tauto.
Qed.
(** If a linear value is used by one node, nothing else uses it. *)
Lemma linear_use c l x w : NoDup (map fst l) -> linear_once c l -> In x l -> In w (linear_ins c x) -> (forall y, In y l -> y <> x -> ~ In w (ins c y)) /\ ~ In w (c_outs c).
Proof.
  intros N L Hx Hw. destruct (in_split _ _ Hx) as (l1 & l2 & E). destruct (in_split _ _ (linear_in _ _ _ _ _ _ Hw)) as (i1 & i2 & Ei).
  assert (Q : uses ain c l = (flat_map (ins c) l1 ++ i1) ++ w :: (i2 ++ flat_map (ins c) l2 ++ c_outs c)).
  { unfold uses. rewrite E, flat_map_app. cbn [flat_map]. rewrite Ei. rewrite <- !app_assoc. cbn [app]. reflexivity. }
  destruct (L x w Hx Hw _ _ Q) as [Q1 Q2]. split.
  - intros y Hy Ne Hi. rewrite E in Hy. apply in_app_or in Hy. destruct Hy as [Hy|[Hy|Hy]]; [|congruence|].
    + apply Q1. apply in_or_app. left. apply in_flat_map. eauto.
    + apply Q2. apply in_or_app. right. apply in_or_app. left. apply in_flat_map. eauto.
  - intros Ho. apply Q2. apply in_or_app. right. apply in_or_app. auto.
Qed.
Lemma without_in ws C x : In x (without ws C) <-> In x C /\ ~ In (fst x) ws.
Proof. unfold without. rewrite filter_In. destruct (in_dec source_eq_dec (fst x) ws); intuition; discriminate. Qed.
(** Equal nodes on both sides. *)
Lemma sim c d (rho : source -> source) xs : forall C s t (need : source -> Prop),
  like C s t -> NoDup (map fst xs) -> (forall x, In x xs -> wellformed ain aout lin (action_of c x) /\ wellformed ain aout lin (action_of d x)) ->
  (forall x, In x xs -> ins d x = map rho (ins c x)) ->
  (forall x w, In x xs -> In w (outs x) -> rho w = w) ->
  (forall a x b, xs = a ++ x :: b -> forall w, In w (ins c x) -> In (w, rho w) C \/ exists y, In y a /\ In w (outs y)) ->
  (forall x w, In x xs -> In w (outs x) -> ~ In w (map fst C) /\ ~ In w (map snd C)) ->
  (forall a x b, xs = a ++ x :: b -> forall w, In w (linear_ins c x) -> (forall y, In y b -> ~ In w (ins c y)) /\ ~ need w) ->
  (forall w, need w -> In (w, rho w) C \/ exists y, In y xs /\ In w (outs y)) ->
  exists C', like C' (run (map (action_of c) xs) s) (run (map (action_of d) xs) t) /\ (forall w, need w -> In (w, rho w) C') /\
    forall w w', In (w, w') C' -> In (w, w') C \/ exists y, In y xs /\ w' = w /\ In w (outs y).
Proof.
  induction xs as [|x xs IH]; intros C s t need L N Wf Hi Hr Ho Hf Hl Hn.
  - exists C. cbn [map]. split; [exact L|]. split; [|auto]. intros w Hw. destruct (Hn w Hw) as [?|(y & [] & _)]; auto.
  - inversion N as [|? ? N1 N2]; subst.
    assert (Hx : forall w, In w (ins c x) -> In (w, rho w) C) by (intros w Hw; destruct (Ho [] x xs eq_refl w Hw) as [?|(y & [] & _)]; auto).
    set (C1 := without (linear_ins c x) C ++ combine (outs x) (outs x)).
    assert (Cc : forall w w', In (w, w') (combine (outs x) (outs x)) -> w' = w /\ In w (outs x)).
    { intros w w' H. split; [|apply in_combine_l in H; auto]. clear - H. induction (outs x) as [|u l IHl]; [contradiction|]. cbn in H. destruct H as [[= <- <-]|H]; auto. }
    assert (Cd : forall w, In w (outs x) -> In (w, w) (combine (outs x) (outs x))) by (clear; intros w; induction (outs x) as [|u l IHl]; [intros []|]; cbn; intros [->|H]; auto).
    assert (L1 : like C1 (act I (action_of c x) s) (act I (action_of d x) t)).
    { unfold C1. rewrite <- (linear_action _ ain aout lin). refine (like_step _ _ _ _ _ I C s t (action_of c x) (action_of d x) L _ _ eq_refl _ _ _).
      - apply Wf. now left.
      - apply Wf. now left.
      - cbn [a_ins PatSpec.action_of]. rewrite Hi by now left. clear - Hx. induction (ins c x) as [|w l IHl]; cbn [map]; constructor; [apply Hx; now left|apply IHl; intros; apply Hx; now right].
      - intros w Hw. apply (Hf x w); auto. now left.
      - intros w Hw. apply (Hf x w); auto. now left. }
    destruct (IH C1 (act I (action_of c x) s) (act I (action_of d x) t) need) as (C' & Lc & Nc & Bc); auto.
    + intros y Hy. apply Wf. now right.
    + intros y Hy. apply Hi. now right.
    + intros y w Hy. apply Hr. now right.
    + intros a y b E w Hw. destruct (Ho (x :: a) y b) with (w := w) as [H|(z & [<-|Hz] & H)]; auto.
      * rewrite E. reflexivity.
      * left. apply in_or_app. left. apply without_in. split; auto. intros Hlin. destruct (Hl [] x xs eq_refl w Hlin) as [H1 _]. apply (H1 y); auto. rewrite E. apply in_or_app. right. now left.
      * left. apply in_or_app. right. rewrite (Hr x w); auto. now left.
      * right. eauto.
    + intros y w Hy Hw. destruct (Hf y w (or_intror Hy) Hw) as [F1 F2].
      assert (Nx : ~ In w (outs x)). { intros H. apply (out_id _ aout) in Hw, H. destruct Hw as [? ->], H as [? E]. injection E as E _. apply N1. rewrite <- E. apply in_map. auto. }
      split; intros H; apply in_map_iff in H; destruct H as ([u v] & E & H); cbn [fst snd] in E; subst; apply in_app_or in H; destruct H as [H|H].
      * apply without_in in H. apply F1. apply in_map_iff. exists (w, v). tauto.
      * apply Cc in H. tauto.
      * apply without_in in H. apply F2. apply in_map_iff. exists (u, w). tauto.
      * apply Cc in H. destruct H as [-> H]. tauto.
    + intros a y b E w Hw. apply (Hl (x :: a) y b); auto. rewrite E. reflexivity.
    + intros w Hw. destruct (Hn w Hw) as [H|(y & [<-|Hy] & H)].
      * left. apply in_or_app. left. apply without_in. split; auto. intros Hlin. destruct (Hl [] x xs eq_refl w Hlin) as [_ H1]. auto.
      * left. apply in_or_app. right. rewrite (Hr x w); auto. now left.
      * right. eauto.
    + exists C'. split; [exact Lc|]. split; [exact Nc|]. intros w w' H. destruct (Bc w w' H) as [H1|(y & Hy & H1 & H2)]; [|right; exists y; split; [now right|auto]].
      apply in_app_or in H1. destruct H1 as [H1|H1]; [apply without_in in H1; left; tauto|]. apply Cc in H1. right. exists x. split; [now left|tauto].
Qed.

(** ** The order: what comes before the image, the image, what comes after *)
Section Order.
Variables (c p r : circuit) (f : nat -> nat) (i : nat -> source) (off : nat) (l lp lr : list (nat * Op)).
Hypothesis Hc : schedule c l.
Hypothesis Hp : schedule p lp.
Hypothesis Hr : schedule r lr.
Hypothesis Em : embedding ain p c f i.
Hypothesis Cv : convex ain p c f i.
Hypothesis Cl : closed ain p c f.
Hypothesis Hin : c_inputs p = c_inputs r.
Hypothesis Hout : length (c_outs p) = length (c_outs r).
Hypothesis Hw : forall w, In w (c_outs p) -> exists n j, w = Out n j.
Hypothesis Hu : forall k, k < c_inputs p -> exists x q, In x (c_nodes p) /\ q < ain (snd x) /\ c_src p (fst x) q = Inp k.
Hypothesis Hf : forall x, In x (c_nodes c) -> fst x < off.
Variable g : nat -> bool.
Hypothesis Hg : forall x, In x l -> (g (fst x) = true <-> after ain p c f (fst x)).
Notation d := (replace c p r f i off).
Notation rho := (redirect p r f i off).
Definition sigma (w : source) : source := match w with Inp k => i k | Out n j => Out (f n) j end.
Definition before := filter (fun x => negb (g (fst x))) l.
Definition aft := filter (fun x => g (fst x) && negb (in_image p f (fst x))) l.
Definition img := map (fun x : nat * Op => (f (fst x), snd x)) lp.
Definition rep := map (fun x : nat * Op => (off + fst x, snd x)) lr.

Lemma in_l x : In x l <-> In x (c_nodes c).
Proof. split; apply Permutation_in; [apply Permutation_sym|]; apply (v_perm Hc). Qed.
Lemma in_lp x : In x lp <-> In x (c_nodes p).
Proof. split; apply Permutation_in; [apply Permutation_sym|]; apply (v_perm Hp). Qed.
Lemma in_lr x : In x lr <-> In x (c_nodes r).
Proof. split; apply Permutation_in; [apply Permutation_sym|]; apply (v_perm Hr). Qed.
Lemma in_image_iff n : in_image p f n = true <-> image p f n.
Proof.
  unfold in_image, image. rewrite existsb_exists. split; intros (x & Hx & E); exists x; split; auto; [apply Nat.eqb_eq in E; auto|apply Nat.eqb_eq; auto].
Qed.
Lemma in_image_not n : in_image p f n = false <-> ~ image p f n.
Proof. rewrite <- in_image_iff. destruct (in_image p f n); intuition discriminate. Qed.
Lemma in_before x : In x before <-> In x l /\ ~ after ain p c f (fst x).
Proof.
  unfold before. rewrite filter_In. split; intros [H1 H2]; split; auto.
  - intros A. apply (Hg x H1) in A. rewrite A in H2. discriminate.
  - destruct (g (fst x)) eqn:E; auto. apply (Hg x H1) in E. contradiction.
Qed.
Lemma in_aft x : In x aft <-> In x l /\ after ain p c f (fst x) /\ ~ image p f (fst x).
Proof.
  unfold aft. rewrite filter_In, andb_true_iff, negb_true_iff, in_image_not. split.
  - intros (H1 & H2 & H3). split; auto. split; auto. apply Hg; auto.
  - intros (H1 & H2 & H3). split; auto. split; auto. apply Hg; auto.
Qed.
Lemma in_img x : In x img <-> In x l /\ image p f (fst x).
Proof.
  unfold img. rewrite in_map_iff. split.
  - intros (y & <- & Hy). cbn [fst]. apply in_lp in Hy. split; [apply in_l; apply (e_op Em); auto|]. exists y. auto.
  - intros (Hx & y & Hy & E). exists y. split; [|apply in_lp; auto]. apply (nodup_fst l); auto; [apply (v_ids Hc)|]. apply in_l. apply (e_op Em). auto.
Qed.
Lemma img_dec (x : nat * Op) : image p f (fst x) \/ ~ image p f (fst x).
Proof. destruct (in_image p f (fst x)) eqn:E; [left; apply in_image_iff; auto|right; apply in_image_not; auto]. Qed.
Lemma parts x : In x l -> In x before \/ In x img \/ In x aft.
Proof.
  intros Hx. destruct (img_dec x) as [H|H]; [right; left; apply in_img; auto|]. destruct (g (fst x)) eqn:E.
  - right. right. apply in_aft. split; auto. split; auto. apply Hg; auto.
  - left. apply filter_In. split; auto. rewrite E. reflexivity.
Qed.
Lemma ids_before : NoDup (map fst before).
Proof. apply nodup_filter_map, (v_ids Hc). Qed.
Lemma ids_aft : NoDup (map fst aft).
Proof. apply nodup_filter_map, (v_ids Hc). Qed.
Lemma ids_img : NoDup (map fst img).
Proof.
  unfold img. rewrite map_map. cbn [fst]. assert (N := v_ids Hp). assert (S : forall x, In x lp -> In x (c_nodes p)) by (intros x; apply in_lp).
  clear - N S Em. induction lp as [|x xs IH]; cbn [map] in *; [constructor|]. inversion N as [|? ? N1 N2]; subst. constructor; [|apply IH; auto; intros; apply S; now right].
  intros H. apply in_map_iff in H. destruct H as (y & E & Hy). apply N1. assert (y = x) as -> by (apply (e_inj Em); auto; apply S; [now right|now left]). apply in_map. auto.
Qed.
Lemma ids_rep : NoDup (map fst rep).
Proof.
  unfold rep. rewrite map_map. cbn [fst]. rewrite <- (map_map (@fst nat Op) (fun n => off + n)). apply FinFun.Injective_map_NoDup; [intros a b E; lia|apply (v_ids Hr)].
Qed.
Lemma disjoint_ids (xs ys : list (nat * Op)) (P : nat -> Prop) : (forall x, In x xs -> P (fst x)) -> (forall x, In x ys -> ~ P (fst x)) -> forall n, In n (map fst xs) -> ~ In n (map fst ys).
Proof. intros A B n H1 H2. apply in_map_iff in H1, H2. destruct H1 as (x & <- & Hx), H2 as (y & E & Hy). apply (B y Hy). rewrite E. apply A; auto. Qed.
Lemma img_after n : image p f n -> after ain p c f n.
Proof. intros. apply after_image. auto. Qed.
Lemma ids_1 : NoDup (map fst (before ++ img ++ aft)).
Proof.
  rewrite !map_app. apply nodup_app; [apply ids_before| |].
  - apply nodup_app; [apply ids_img|apply ids_aft|]. apply (disjoint_ids _ _ (image p f)); intros x Hx; [apply in_img in Hx|apply in_aft in Hx]; tauto.
  - rewrite <- map_app. apply (disjoint_ids _ _ (fun n => ~ after ain p c f n)); intros x Hx; [apply in_before in Hx; tauto|].
    apply in_app_or in Hx. destruct Hx as [Hx|Hx]; [apply in_img in Hx; destruct Hx as [_ Hx]; apply img_after in Hx|apply in_aft in Hx]; tauto.
Qed.
Lemma perm_1 : Permutation l (before ++ img ++ aft).
Proof.
  apply NoDup_Permutation; [apply (NoDup_map_inv fst), (v_ids Hc)|apply (NoDup_map_inv fst), ids_1|]. intros x. split.
  - intros H. destruct (parts x H) as [?|[?|?]]; rewrite !in_app_iff; auto.
  - rewrite !in_app_iff. rewrite in_before, in_img, in_aft. tauto.
Qed.
Lemma ids_2 : NoDup (map fst (before ++ rep ++ aft)).
Proof.
  assert (R : forall x, In x rep -> ~ fst x < off) by (intros x Hx; apply in_map_iff in Hx; destruct Hx as (y & <- & _); cbn [fst]; lia).
  assert (B : forall x, In x before -> fst x < off) by (intros x Hx; apply Hf, in_l; apply in_before in Hx; tauto).
  assert (A : forall x, In x aft -> fst x < off) by (intros x Hx; apply Hf, in_l; apply in_aft in Hx; tauto).
  rewrite !map_app. apply nodup_app; [apply ids_before| |].
  - apply nodup_app; [apply ids_rep|apply ids_aft|]. intros n H1 H2. revert n H2 H1. apply (disjoint_ids _ _ (fun n => n < off)); auto.
  - intros n H1 H2. apply in_app_or in H2. destruct H2 as [H2|H2]; [revert n H1 H2; apply (disjoint_ids _ _ (fun n => n < off)); auto|].
    revert n H1 H2. apply (disjoint_ids _ _ (fun n => ~ after ain p c f n)); intros x Hx; [apply in_before in Hx|apply in_aft in Hx]; tauto.
Qed.
Lemma perm_2 : Permutation (c_nodes d) (before ++ rep ++ aft).
Proof.
  apply NoDup_Permutation; [|apply (NoDup_map_inv fst), ids_2|].
  - cbn [c_nodes replace]. apply (NoDup_map_inv fst). rewrite map_app. apply nodup_app.
    + apply nodup_filter_map. eapply Permutation_NoDup; [apply Permutation_map, Permutation_sym, (v_perm Hc)|apply (v_ids Hc)].
    + rewrite map_map. cbn [fst]. rewrite <- (map_map (@fst nat Op) (fun n => off + n)). apply FinFun.Injective_map_NoDup; [intros a b E; lia|]. eapply Permutation_NoDup; [apply Permutation_map, Permutation_sym, (v_perm Hr)|apply (v_ids Hr)].
    + intros n H1 H2. apply in_map_iff in H1, H2. destruct H1 as (x & <- & Hx), H2 as (y & E & Hy). apply filter_In in Hx. apply in_map_iff in Hy. destruct Hy as (z & <- & _). destruct Hx as [Hx _]. apply Hf in Hx. cbn [fst] in E. lia.
  - intros x. cbn [c_nodes replace]. rewrite !in_app_iff, in_before, in_aft, filter_In, <- in_l, negb_true_iff, in_image_not.
    unfold rep. rewrite !in_map_iff.
    assert (Q : (exists x0, (off + fst x0, snd x0) = x /\ In x0 (c_nodes r)) <-> (exists x0, (off + fst x0, snd x0) = x /\ In x0 lr)) by (split; intros (z & E & Hz); exists z; split; auto; apply in_lr; auto).
    rewrite Q. split.
    + intros [[H1 H2]|H]; [|tauto]. destruct (parts x H1) as [H|[H|H]]; [apply in_before in H|apply in_img in H|apply in_aft in H]; tauto.
    + intros [[H1 H2]|[H|H]]; [|tauto|tauto]. left. split; auto. intros H. apply img_after in H. contradiction.
Qed.
(** Where values come from. *)
Lemma known_before w : known c l w -> (forall n j, w = Out n j -> ~ after ain p c f n) -> known c before w.
Proof.
  intros [H|(x & Hx & H)] N; [left; auto|]. right. exists x. split; auto. apply in_before. split; auto. destruct (out_id _ aout _ _ H) as (j & E). apply (N _ _ E).
Qed.
Lemma known_in x w : In x l -> In w (ins c x) -> known c l w.
Proof.
  intros Hx H. destruct (in_split _ _ Hx) as (a & b & E). destruct (v_order Hc _ _ _ E _ H) as [K|(y & Hy & K)]; [left; auto|right; exists y; split; auto; rewrite E; apply in_or_app; auto].
Qed.
Lemma input_used k : k < c_inputs p -> exists x q, In x lp /\ q < ain (snd x) /\ c_src p (fst x) q = Inp k /\ c_src c (f (fst x)) q = i k.
Proof. intros Hk. destruct (Hu k Hk) as (x & q & H1 & H2 & H3). exists x, q. split; [apply in_lp; auto|]. split; auto. split; auto. rewrite (e_wire Em) by auto. rewrite H3. reflexivity. Qed.
Lemma input_before k : k < c_inputs p -> known c before (i k).
Proof.
  intros Hk. destruct (input_used k Hk) as (x & q & H1 & H2 & H3 & H4). apply known_before.
  - apply (known_in (f (fst x), snd x)); [apply in_l; apply (e_op Em); apply in_lp; auto|]. rewrite <- H4. apply in_map_iff. exists q. cbn [fst snd]. split; auto. apply in_seq. lia.
  - intros n j E. apply (Cv k n j); auto.
Qed.
Lemma placed_sigma : placed_outs p f = map sigma (c_outs p).
Proof. apply map_ext_in. intros w Hin'. destruct (Hw w Hin') as (n & j & ->). reflexivity. Qed.
Lemma placed_image w : In w (placed_outs p f) -> exists n j, w = Out (f n) j /\ image p f (f n) /\ In (Out n j) (c_outs p).
Proof.
  rewrite placed_sigma. intros H. apply in_map_iff in H. destruct H as (v & <- & Hv). destruct (Hw v Hv) as (n & j & ->). exists n, j. split; auto. split; auto.
  destruct (v_outs Hp _ Hv) as [(k & E & _)|(x & Hx & H)]; [discriminate|]. apply (out_id _ aout) in H. destruct H as (j' & [= -> ->]). exists x. split; auto. apply in_lp; auto.
Qed.
Lemma rho_id w : (forall n j, w = Out n j -> ~ image p f n) -> rho w = w.
Proof.
  intros N. unfold redirect. destruct (position w (placed_outs p f)) as [k|] eqn:E; auto. apply position_some in E. apply nth_error_In in E. apply placed_image in E. destruct E as (n & j & -> & H & _). exfalso. apply (N _ _ eq_refl H).
Qed.
Lemma rho_out n j : In (Out n j) (c_outs p) -> In (Out (f n) j, rho (Out (f n) j)) (combine (map sigma (c_outs p)) (map (place i off) (c_outs r))) /\ exists v, In v (c_outs r) /\ rho (Out (f n) j) = place i off v.
Proof.
  intros H. unfold redirect. destruct (position (Out (f n) j) (placed_outs p f)) as [k|] eqn:E.
  - apply position_some in E. rewrite placed_sigma in E. assert (Lk : k < length (c_outs p)) by (rewrite <- (map_length sigma); apply nth_error_Some; congruence).
    destruct (nth_error (c_outs r) k) as [v|] eqn:Er; [|apply nth_error_None in Er; lia].
    rewrite (nth_error_nth _ _ _ Er). split; [|exists v; split; auto; eapply nth_error_In; eauto].
    assert (Er' : nth_error (map (place i off) (c_outs r)) k = Some (place i off v)) by (rewrite nth_error_map, Er; reflexivity).
    revert E Er'. generalize (map (place i off) (c_outs r)), (map sigma (c_outs p)). clear. revert k. induction k as [|k IH]; intros [|y ys] [|x xs] E1 E2; cbn in *; try discriminate; [injection E1 as ->; injection E2 as ->; auto|]. right. apply IH; auto.
  - exfalso. apply (position_none _ _ E). rewrite placed_sigma. apply in_map_iff. exists (Out n j). auto.
Qed.
Lemma image_node n : image p f n -> exists m, n = f m /\ In m (map fst (c_nodes p)).
Proof. intros (x & Hx & ->). exists (fst x). split; auto. apply in_map. auto. Qed.
(** Values used outside the image come from outside, or are outputs of the pattern. *)
Lemma outside_use w : (exists x, In x l /\ ~ image p f (fst x) /\ In w (ins c x)) \/ In w (c_outs c) ->
  (forall n j, w = Out n j -> ~ image p f n) \/ exists n j, w = Out (f n) j /\ In (Out n j) (c_outs p).
Proof.
  intros H. destruct w as [k|n j]; [left; intros; discriminate|]. destruct (in_image p f n) eqn:Ei.
  - apply in_image_iff, image_node in Ei. destruct Ei as (m & -> & Hm). right. exists m, j. split; auto. destruct H as [(x & Hx & Hi & H)|H].
    + apply in_map_iff in H. destruct H as (q & E & Hq). apply in_seq in Hq. apply (proj1 Cl x q m j); auto; [apply in_l; auto|lia].
    + apply (proj2 Cl); auto.
  - left. intros ? ? [= <- <-]. apply in_image_not. auto.
Qed.
Lemma order_1 : ordered c (before ++ img ++ aft).
Proof.
  intros a x b E w H. apply app_split in E. destruct E as [(b' & E & _)|(a1 & -> & E)].
  - apply filter_split in E. destruct E as (a' & b'' & E & -> & _ & Q). destruct (v_order Hc _ _ _ E _ H) as [K|(y & Hy & K)]; [left; auto|]. right. exists y. split; auto.
    assert (Hyl : In y l) by (rewrite E; apply in_or_app; auto). assert (Hxl : In x l) by (rewrite E; apply in_or_app; right; now left).
    apply filter_In. split; auto. destruct (g (fst y)) eqn:G; auto. exfalso. apply (Hg y Hyl) in G. apply (out_id _ aout) in K. destruct K as (j & ->). apply in_map_iff in H. destruct H as (q & Eq & Hq). apply in_seq in Hq.
    assert (Ax : after ain p c f (fst x)) by (apply (after_step _ _ _ _ _ x q (fst y) j); auto; [apply in_l; auto|lia]). apply (Hg x Hxl) in Ax. rewrite Ax in Q. discriminate.
  - apply app_split in E. destruct E as [(b' & E & _)|(a2 & -> & E)].
    + unfold img in E. assert (M : exists u y v, lp = u ++ y :: v /\ a1 = map (fun x => (f (fst x), snd x)) u /\ x = (f (fst y), snd y)).
      { clear - E. revert a1 E. induction lp as [|z zs IH]; intros a1 E; [destruct a1; discriminate|]. destruct a1 as [|h a1]; cbn [map app] in E; injection E as E1 E2.
        - exists [], z, zs. auto.
        - destruct (IH _ E2) as (u & y & v & -> & -> & ->). exists (z :: u), y, v. subst h. auto. }
      destruct M as (u & y & v & El & -> & ->). apply in_map_iff in H. destruct H as (q & Eq & Hq). apply in_seq in Hq. cbn [fst snd] in *.
      assert (Hy : In y lp) by (rewrite El; apply in_or_app; right; now left).
      rewrite (e_wire Em) in Eq by (try apply in_lp; auto; lia). 
      assert (K : known p u (c_src p (fst y) q)) by (apply (v_order Hp _ _ _ El); apply in_map_iff; exists q; split; auto; apply in_seq; lia).
      destruct (c_src p (fst y) q) as [k|n j] eqn:Es.
      * destruct K as [(k' & [= <-] & Hk)|(z & _ & K)]; [|apply (out_id _ aout) in K; destruct K; discriminate]. subst w. destruct (input_before k Hk) as [K|(z & Hz & K)]; [left; auto|]. right. exists z. split; auto. apply in_or_app. auto.
      * destruct K as [(k' & E' & _)|(z & Hz & K)]; [discriminate|]. right. exists (f (fst z), snd z). split; [apply in_or_app; right; apply in_map_iff; eauto|].
        apply in_map_iff in K. destruct K as (j' & [= <- <-] & K). subst w. apply in_map_iff. exists j'. auto.
    + apply filter_split in E. destruct E as (a' & b' & E & -> & _ & Q). destruct (v_order Hc _ _ _ E _ H) as [K|(y & Hy & K)]; [left; auto|]. right. exists y. split; auto.
      assert (Hyl : In y l) by (rewrite E; apply in_or_app; auto). rewrite !in_app_iff. destruct (parts y Hyl) as [P|[P|P]]; auto. right. right. apply filter_In. split; auto. apply filter_In in P. tauto.
Qed.
Lemma schedule_1 : schedule c (before ++ img ++ aft).
Proof.
  constructor.
  - eapply Permutation_trans; [apply (v_perm Hc)|apply perm_1].
  - apply ids_1.
  - apply order_1.
  - intros w H. destruct (v_outs Hc _ H) as [K|(y & Hy & K)]; [left; auto|]. right. exists y. split; auto. eapply Permutation_in; [apply perm_1|auto].
  - eapply linear_once_perm; [apply perm_1|apply (v_linear Hc)].
Qed.
(** The new circuit. *)
Lemma ins_host x : fst x < off -> ins d x = map rho (ins c x).
Proof. intros H. unfold PatSpec.ins. rewrite map_map. apply map_ext. intros k. cbn [c_src replace]. apply Nat.ltb_lt in H. rewrite H. reflexivity. Qed.
Lemma ins_rep x : ins d (off + fst x, snd x) = map (place i off) (ins r x).
Proof. unfold PatSpec.ins. rewrite map_map. apply map_ext. intros k. cbn [c_src replace fst snd]. assert (H : off + fst x <? off = false) by (apply Nat.ltb_ge; lia). rewrite H. replace (off + fst x - off) with (fst x) by lia. reflexivity. Qed.
Lemma place_known w a : known r a w -> known c before (place i off w) \/ exists y, In y (map (fun x : nat * Op => (off + fst x, snd x)) a) /\ In (place i off w) (outs y).
Proof.
  intros [(k & -> & Hk)|(y & Hy & K)]; [left; cbn [place]; apply input_before; lia|]. right. exists (off + fst y, snd y). split; [apply in_map_iff; eauto|].
  apply in_map_iff in K. destruct K as (j & <- & K). cbn [place]. apply in_map_iff. exists j. auto.
Qed.
Lemma known_d a w : known c a w -> known d a w.
Proof. intros K. exact K. Qed.
Lemma before_not x w : In x before -> In w (outs x) -> forall n j, w = Out n j -> ~ image p f n.
Proof. intros Hx K n j ->. apply (out_id _ aout) in K. destruct K as (j' & [= -> _]). intros Hi. apply in_before in Hx. apply img_after in Hi. tauto. Qed.
Lemma known_before_not w : known c before w -> forall n j, w = Out n j -> ~ image p f n.
Proof. intros [(k & -> & _)|(x & Hx & K)]; [discriminate|]. eapply before_not; eauto. Qed.
Lemma use_after v a' : known c a' v -> (forall y, In y a' -> In y l) ->
  ((exists x, In x l /\ ~ image p f (fst x) /\ In v (ins c x)) \/ In v (c_outs c)) ->
  known d (before ++ rep ++ filter (fun x => g (fst x) && negb (in_image p f (fst x))) a') (rho v).
Proof.
  intros K S U. destruct (outside_use v U) as [N|(n & j & -> & Ho)].
  - rewrite rho_id by auto. destruct K as [K|(y & Hy & K)]; [left; auto|]. right. exists y. split; auto. rewrite !in_app_iff. destruct (parts y (S y Hy)) as [P|[P|P]]; auto.
    + exfalso. apply in_img in P. apply (out_id _ aout) in K. destruct K as (j & ->). apply (N _ _ eq_refl). tauto.
    + right. right. apply filter_In. split; auto. apply filter_In in P. tauto.
  - destruct (rho_out n j Ho) as (_ & u & Hu' & ->). destruct (place_known u lr (v_outs Hr _ Hu')) as [[K'|(y & Hy & K')]|(y & Hy & K')]; [left; auto| |]; right; exists y; split; auto; rewrite !in_app_iff; auto.
Qed.
Lemma order_2 : ordered d (before ++ rep ++ aft).
Proof.
  intros a x b E w H. apply app_split in E. destruct E as [(b' & E & _)|(a1 & -> & E)].
  - assert (Hx : In x before) by (rewrite E; apply in_or_app; right; now left). assert (Hxl := proj1 (proj1 (in_before x) Hx)).
    rewrite ins_host in H by (apply Hf, in_l; auto). apply in_map_iff in H. destruct H as (v & <- & H).
    assert (K : known c a v) by (apply (order_1 a x (b' ++ img ++ aft)); auto; rewrite E, <- app_assoc; reflexivity).
    assert (Kb : known c before v) by (destruct K as [K|(y & Hy & K)]; [left; auto|right; exists y; split; auto; rewrite E; apply in_or_app; auto]).
    rewrite rho_id by (apply known_before_not; auto). auto.
  - apply app_split in E. destruct E as [(b' & E & _)|(a2 & -> & E)].
    + unfold rep in E. assert (M : exists u y v, lr = u ++ y :: v /\ a1 = map (fun x => (off + fst x, snd x)) u /\ x = (off + fst y, snd y)).
      { clear - E. revert a1 E. induction lr as [|z zs IH]; intros a1 E; [destruct a1; discriminate|]. destruct a1 as [|h a1]; cbn [map app] in E; injection E as E1 E2.
        - exists [], z, zs. auto.
        - destruct (IH _ E2) as (u & y & v & -> & -> & ->). exists (z :: u), y, v. subst h. auto. }
      destruct M as (u & y & v & El & -> & ->). rewrite ins_rep in H. apply in_map_iff in H. destruct H as (v' & <- & H).
      destruct (place_known v' u (v_order Hr _ _ _ El _ H)) as [[K'|(z & Hz & K')]|(z & Hz & K')]; [left; auto| |]; right; exists z; split; auto; rewrite !in_app_iff; auto.
    + apply filter_split in E. destruct E as (a' & b' & E & -> & _ & Q). assert (Hx : In x l) by (rewrite E; apply in_or_app; right; now left).
      rewrite ins_host in H by (apply Hf, in_l; auto). apply in_map_iff in H. destruct H as (v & <- & H). apply use_after.
      * apply (v_order Hc _ _ _ E). auto.
      * intros y Hy. rewrite E. apply in_or_app. auto.
      * left. exists x. split; auto. split; auto. apply andb_true_iff in Q. rewrite negb_true_iff, in_image_not in Q. tauto.
Qed.
Lemma outs_2 w : In w (c_outs d) -> known d (before ++ rep ++ aft) w.
Proof. intros H. cbn [c_outs replace] in H. apply in_map_iff in H. destruct H as (v & <- & H). apply use_after; auto. apply (v_outs Hc). auto. Qed.
Lemma schedule_2 : linear_once d (before ++ rep ++ aft) -> schedule d (before ++ rep ++ aft).
Proof. intros L. constructor; [apply perm_2|apply ids_2|apply order_2|apply outs_2|exact L]. Qed.

(** ** Both circuits side by side *)
Lemma act_img : map (action_of c) img = map (fun x => rename sigma (action_of p x)) lp.
Proof.
  unfold img. rewrite map_map. apply map_ext_in. intros x Hx. apply in_lp in Hx. unfold PatSpec.action_of, rename. cbn [a_op a_ins a_outs fst snd]. f_equal.
  - unfold PatSpec.ins. rewrite map_map. apply map_ext_in. intros k Hk. apply in_seq in Hk. cbn [fst snd]. apply (e_wire Em); auto; lia.
  - unfold PatSpec.outs. rewrite map_map. apply map_ext. intros j. reflexivity.
Qed.
Lemma act_rep : map (action_of d) rep = map (fun x => rename (place i off) (action_of r x)) lr.
Proof.
  unfold rep. rewrite map_map. apply map_ext. intros x. unfold PatSpec.action_of, rename. cbn [a_op a_ins a_outs fst snd]. rewrite ins_rep. f_equal.
  unfold PatSpec.outs. rewrite map_map. apply map_ext. intros j. reflexivity.
Qed.
Lemma in_combine_map {A B} (h : A -> B) xs x : In x xs -> In (x, h x) (combine xs (map h xs)).
Proof. induction xs as [|y ys IH]; [intros []|]. cbn. intros [->|H]; auto. Qed.
Lemma combine_map_in {A B} (h : A -> B) xs x y : In (x, y) (combine xs (map h xs)) -> In x xs /\ y = h x.
Proof. induction xs as [|z zs IH]; [intros []|]. cbn. intros [[= <- <-]|H]; auto. apply IH in H. tauto. Qed.
Variable ei : list bool.
Hypothesis Hi : interchangeable I ei p r.
Hypothesis Hl : linear_once d (before ++ rep ++ aft).

Lemma both s t : like (map (fun k => (Inp k, Inp k)) (seq 0 (c_inputs c))) s t ->
  (forall k, k < c_inputs p -> kind I (run (map (action_of c) before) s) (i k) = nth k ei false) ->
  (forall k k', k < c_inputs p -> k' < c_inputs p -> nth k ei false = true -> i k = i k' -> k = k') ->
  like (combine (c_outs c) (c_outs d)) (run (map (action_of c) (before ++ img ++ aft)) s) (run (map (action_of d) (before ++ rep ++ aft)) t).
Proof.
  intros L0 Hk0 Hd0.
  assert (Wf : forall x, In x before \/ In x aft -> wellformed ain aout lin (action_of c x) /\ wellformed ain aout lin (action_of d x)).
  { intros x Hx. split; [apply (node_wellformed _ ain aout lin c l); [apply (v_linear Hc)|destruct Hx as [Hx|Hx]; [apply in_before in Hx|apply in_aft in Hx]; tauto]|].
    apply (node_wellformed _ ain aout lin d (before ++ rep ++ aft)); auto. rewrite !in_app_iff. tauto. }
  assert (LU : forall x w, In x (before ++ img ++ aft) -> In w (linear_ins c x) -> (forall y, In y (before ++ img ++ aft) -> y <> x -> ~ In w (ins c y)) /\ ~ In w (c_outs c)).
  { intros x w Hx H. apply linear_use; auto; [apply (v_ids schedule_1)|apply (v_linear schedule_1)]. }
  assert (LB : forall x w, In x l -> In w (linear_ins c x) -> (forall y, In y l -> y <> x -> ~ In w (ins c y)) /\ ~ In w (c_outs c)).
  { intros x w Hx H. apply linear_use; auto; [apply (v_ids Hc)|apply (v_linear Hc)]. }
  set (outer := fun w => (exists x, In x aft /\ In w (ins c x)) \/ In w (c_outs c)).
  assert (OU : forall w, outer w -> (exists x, In x l /\ ~ image p f (fst x) /\ In w (ins c x)) \/ In w (c_outs c)).
  { intros w [(x & Hx & H)|H]; [left; exists x; apply in_aft in Hx; tauto|right; auto]. }
  assert (OK : forall w, outer w -> known c l w).
  { intros w [(x & Hx & H)|H]; [apply in_aft in Hx; eapply known_in; [apply Hx|auto]|apply (v_outs Hc); auto]. }
  set (need1 := fun w => (exists k, k < c_inputs p /\ w = i k) \/ (outer w /\ known c before w)).
  assert (K1 : forall w, need1 w -> known c before w) by (intros w [(k & Hk & ->)|[_ K]]; auto; apply input_before; auto).
  assert (R1 : forall w, known c before w -> rho w = w) by (intros w K; apply rho_id; apply known_before_not; auto).
  destruct (sim c d rho before (map (fun k => (Inp k, Inp k)) (seq 0 (c_inputs c))) s t need1) as (C1 & L1 & N1 & B1); auto.
  - apply ids_before.
  - intros x Hx. apply ins_host. apply Hf, in_l. apply in_before in Hx. tauto.
  - intros x w Hx H. apply R1. right. eauto.
  - intros a x b E w H. assert (K : known c a w) by (apply (order_1 a x (b ++ img ++ aft)); auto; rewrite E, <- app_assoc; reflexivity).
    destruct K as [(k & -> & Hk)|K]; [|right; auto]. left. rewrite R1 by (left; eauto). apply in_map_iff. exists k. split; auto. apply in_seq. lia.
  - intros x w Hx H. apply (out_id _ aout) in H. destruct H as (j & ->). rewrite !map_map. cbn [fst snd]. split; intros H; apply in_map_iff in H; destruct H as (k & E & _); discriminate.
  - intros a x b E w H. assert (Hx : In x before) by (rewrite E; apply in_or_app; right; now left). assert (Hxl := proj1 (proj1 (in_before x) Hx)). destruct (LB x w Hxl H) as [U1 U2].
    assert (Nb := ids_before). rewrite E in Nb. split.
    + intros y Hy. apply U1.
      * assert (In y before) by (rewrite E; apply in_or_app; right; now right). apply in_before in H0. tauto.
      * intros ->. rewrite map_app in Nb. cbn [map] in Nb. apply NoDup_remove_2 in Nb. apply Nb. apply in_or_app. right. apply in_map. auto.
    + intros [(k & Hk & ->)|[[(y & Hy & Q)|Q] _]]; auto.
      * destruct (input_used k Hk) as (y & q & H1 & H2 & H3 & H4). apply (U1 (f (fst y), snd y)).
        -- apply in_l, (e_op Em), in_lp. auto.
        -- intros <-. apply in_before in Hx. destruct Hx as [_ Hx]. apply Hx. cbn [fst]. apply img_after. exists y. split; auto. apply in_lp; auto.
        -- rewrite <- H4. apply in_map_iff. exists q. cbn [fst snd]. split; auto. apply in_seq. lia.
      * apply in_aft in Hy. apply (U1 y); [tauto| |auto]. intros ->. apply in_before in Hx. tauto.
  - intros w H. apply K1 in H. rewrite R1 by auto. destruct H as [(k & -> & Hk)|H]; [left; apply in_map_iff; exists k; split; auto; apply in_seq; lia|right; auto].
  - (* the image and its replacement *)
    assert (B1' : forall w w', In (w, w') C1 -> w' = w /\ known c before w).
    { intros w w' H. destruct (B1 w w' H) as [H1|(y & Hy & -> & H1)]; [|split; auto; right; eauto]. apply in_map_iff in H1. destruct H1 as (k & [= <- <-] & Hk). apply in_seq in Hk. split; auto. left. exists k. split; auto; lia. }
    destruct Hi as (_ & _ & Hi'). assert (L2 := Hi' lp lr sigma (place i off) C1 _ _ Hp Hr L1).
    match type of L2 with ?A -> _ => assert (G1 : A) end.
    { intros k Hk. cbn [sigma place]. assert (In (i k, rho (i k)) C1) by (apply N1; left; eauto). rewrite R1 in H by (apply input_before; auto). auto. }
    specialize (L2 G1 Hk0). clear G1.
    match type of L2 with ?A -> _ => assert (G1 : A) end.
    { intros k k' Hk Hk' Hn Hs. apply Hd0; auto. cbn [sigma place] in Hs. tauto. }
    specialize (L2 G1). clear G1.
    match type of L2 with ?A -> _ => assert (G1 : A) end.
    { intros x w Hx H Hin'. apply (out_id _ aout) in H. destruct H as (j & ->). apply in_map_iff in Hin'. destruct Hin' as ([u v] & E & Hin'). cbn [fst sigma] in E. subst u. apply B1' in Hin'. destruct Hin' as [_ Hin']. apply (known_before_not _ Hin' _ _ eq_refl). exists x. split; auto. apply in_lp; auto. }
    specialize (L2 G1). clear G1.
    assert (Kof : forall n j, known c before (Out n j) -> n < off).
    { intros n j [(k & E & _)|(y & Hy & K)]; [discriminate|]. apply (out_id _ aout) in K. destruct K as (j' & [= -> _]). apply Hf, in_l. apply in_before in Hy. tauto. }
    match type of L2 with ?A -> _ => assert (G1 : A) end.
    { intros x w Hx H Hin'. apply (out_id _ aout) in H. destruct H as (j & ->). apply in_map_iff in Hin'. destruct Hin' as ([u v] & E & Hin'). cbn [snd place] in E. subst v. apply B1' in Hin'. destruct Hin' as [E Hin']. rewrite <- E in Hin'. apply Kof in Hin'. lia. }
    specialize (L2 G1). clear G1.
    match type of L2 with ?A -> _ => assert (G1 : A) end.
    { cbn [sigma]. intros n j n' j' [= E ->] H1 H2. split; auto. apply in_map_iff in H1, H2. destruct H1 as (x & <- & H1), H2 as (y & <- & H2). f_equal. apply (e_inj Em); auto; apply in_lp; auto. }
    specialize (L2 G1). clear G1.
    match type of L2 with ?A -> _ => assert (G1 : A) end.
    { cbn [place]. intros n j n' j' [= E ->] _ _. split; auto. lia. }
    specialize (L2 G1). clear G1. rewrite <- act_img, <- act_rep in L2.
    set (C2 := without (map sigma (linear_inputs p lp)) C1 ++ combine (map sigma (c_outs p)) (map (place i off) (c_outs r))) in *.
    rewrite !map_app, !(run_app _ _ _ _ _ I).
    assert (Aid : forall x w, In x aft -> In w (outs x) -> rho w = w).
    { intros x w Hx H. apply rho_id. apply (out_id _ aout) in H. destruct H as (j & ->). intros n j' [= <- <-]. apply in_aft in Hx. tauto. }
    assert (N2 : forall w, outer w -> In (w, rho w) C2 \/ exists y, In y aft /\ In w (outs y)).
    { intros w O. destruct (outside_use w (OU w O)) as [N|(n & j & -> & Ho)]; [|left; apply in_or_app; right; apply rho_out; auto].
      destruct (OK w O) as [K|(y & Hy & K)].
      - left. assert (Kb : known c before w) by (left; auto). apply in_or_app. left. apply without_in. split; [apply N1; right; auto|]. cbn [fst]. intros Hin'. apply in_map_iff in Hin'. destruct Hin' as (v & Ev & Hin'). unfold PatSpec.linear_inputs in Hin'. apply filter_In in Hin'. destruct Hin' as [Hin' Hv]. apply in_flat_map in Hin'. destruct Hin' as (z & Hz & Hin').
        assert (Hz' : In (f (fst z), snd z) img) by (apply in_map_iff; eauto). assert (Hl' : In w (linear_ins c (f (fst z), snd z))).
        { apply in_map_iff in Hin'. destruct Hin' as (q & <- & Hq). rewrite <- Ev. apply in_map_iff. exists q. cbn [fst snd]. split; auto. apply filter_In in Hq. destruct Hq as [Hq _]. apply in_seq in Hq. apply (e_wire Em); [apply in_lp; auto|lia]. }
        apply in_img in Hz'. destruct (LB _ _ (proj1 Hz') Hl') as [U1 U2]. destruct (OU w O) as [(x & H1 & H2 & H3)|H]; auto. apply (U1 x); auto. intros ->. tauto.
      - destruct (parts y Hy) as [P|[P|P]]; [|exfalso; apply in_img in P; apply (out_id _ aout) in K; destruct K as (j & ->); apply (N _ _ eq_refl); tauto|right; eauto].
        left. assert (Kb : known c before w) by (right; eauto). apply in_or_app. left. apply without_in. split; [apply N1; right; auto|]. cbn [fst]. intros Hin'. apply in_map_iff in Hin'. destruct Hin' as (v & Ev & Hin'). unfold PatSpec.linear_inputs in Hin'. apply filter_In in Hin'. destruct Hin' as [Hin' Hv]. apply in_flat_map in Hin'. destruct Hin' as (z & Hz & Hin').
        assert (Hz' : In (f (fst z), snd z) img) by (apply in_map_iff; eauto). assert (Hl' : In w (linear_ins c (f (fst z), snd z))).
        { apply in_map_iff in Hin'. destruct Hin' as (q & <- & Hq). rewrite <- Ev. apply in_map_iff. exists q. cbn [fst snd]. split; auto. apply filter_In in Hq. destruct Hq as [Hq _]. apply in_seq in Hq. apply (e_wire Em); [apply in_lp; auto|lia]. }
        apply in_img in Hz'. destruct (LB _ _ (proj1 Hz') Hl') as [U1 U2]. destruct (OU w O) as [(x & H1 & H2 & H3)|H]; auto. apply (U1 x); auto. intros ->. tauto. }
    destruct (sim c d rho aft C2 _ _ (fun w => In w (c_outs c)) L2) as (C3 & L3 & N3 & _).
    + apply ids_aft.
    + intros x Hx. apply Wf. auto.
    + intros x Hx. apply ins_host. apply Hf, in_l. apply in_aft in Hx. tauto.
    + exact Aid.
    + intros a x b E w H. assert (Hx : In x aft) by (rewrite E; apply in_or_app; right; now left). destruct (N2 w) as [Q|(y & Hy & Q)]; [left; eauto|left; auto|].
      assert (K : known c (before ++ img ++ a) w) by (apply (order_1 (before ++ img ++ a) x b); auto; rewrite E, <- !app_assoc; reflexivity).
      apply (out_id _ aout) in Q. destruct Q as (j & ->). destruct K as [(k & E' & _)|(z & Hz & K)]; [discriminate|]. assert (K' := K). apply (out_id _ aout) in K. destruct K as (j' & [= Ez <-]).
      right. exists z. split; auto. apply in_aft in Hy. rewrite !in_app_iff in Hz. destruct Hz as [Hz|[Hz|Hz]]; auto; exfalso.
      * apply in_before in Hz. rewrite <- Ez in Hz. tauto.
      * apply in_img in Hz. rewrite <- Ez in Hz. tauto.
    + intros x w Hx H. apply (out_id _ aout) in H. destruct H as (j & ->). apply in_aft in Hx. destruct Hx as (H1 & H2 & H3). unfold C2. split; intros H; apply in_map_iff in H; destruct H as ([u v] & E & H); cbn [fst snd] in E; subst; apply in_app_or in H; destruct H as [H|H].
      * apply without_in in H. destruct H as [H _]. apply B1' in H. destruct H as [_ [(k & E & _)|(y & Hy & K)]]; [discriminate|]. apply (out_id _ aout) in K. destruct K as (j' & [= E _]). apply in_before in Hy. rewrite <- E in Hy. tauto.
      * apply in_combine_l in H. rewrite <- placed_sigma in H. apply placed_image in H. destruct H as (n & j' & [= E _] & Hn & _). rewrite <- E in Hn. contradiction.
      * apply without_in in H. destruct H as [H _]. apply B1' in H. destruct H as [E [(k & E' & _)|(y & Hy & K)]]; [congruence|]. rewrite <- E in K. apply (out_id _ aout) in K. destruct K as (j' & [= E' _]). apply in_before in Hy. rewrite <- E' in Hy. tauto.
      * apply in_combine_r in H. apply in_map_iff in H. destruct H as (v & E & H). destruct (place_known v lr (v_outs Hr _ H)) as [[(k & E' & _)|(y & Hy & K)]|(y & Hy & K)]; [congruence| |]; rewrite E in K; apply (out_id _ aout) in K; destruct K as (j' & [= E' _]).
        -- apply in_before in Hy. rewrite <- E' in Hy. tauto.
        -- apply in_map_iff in Hy. destruct Hy as (z & Ez & _). rewrite <- Ez in E'. cbn [fst] in E'. apply in_l, Hf in H1. lia.
    + intros a x b E w H. assert (Hx : In x aft) by (rewrite E; apply in_or_app; right; now left). assert (Hxl := proj1 (proj1 (in_aft x) Hx)). destruct (LB x w Hxl H) as [U1 U2]. split; auto.
      intros y Hy. assert (Na := ids_aft). rewrite E in Na. apply U1.
      * assert (In y aft) by (rewrite E; apply in_or_app; right; now right). apply in_aft in H0. tauto.
      * intros ->. rewrite map_app in Na. cbn [map] in Na. apply NoDup_remove_2 in Na. apply Na. apply in_or_app. right. apply in_map. auto.
    + intros w H. apply N2. right. auto.
    + eapply like_sub; [exact L3|]. intros [u v] H. cbn [c_outs replace] in H. apply combine_map_in in H. destruct H as [H ->]. auto.
Qed.
End Order.

(** ** The new circuit is linear *)
Notation flag := (flag lout).
Notation linear_typed := (linear_typed ain lin lout).
Lemma flag_node c fi x j : NoDup (map fst (c_nodes c)) -> In x (c_nodes c) -> flag c fi (Out (fst x) j) = lout (snd x) j.
Proof. intros N H. cbn [PatSpec.flag]. rewrite find_id; auto. Qed.
Lemma uses_perm c l m : Permutation l m -> Permutation (uses ain c l) (uses ain c m).
Proof. intros P. apply Permutation_app_tail. apply Permutation_flat_map. auto. Qed.
Lemma typed_once c fi fo l : linear_typed c fi fo -> Permutation (c_nodes c) l -> linear_once c l.
Proof.
  intros T P x w Hx H a b E. apply in_map_iff in H. destruct H as (k & <- & H). apply filter_In in H. destruct H as [H1 H2]. apply in_seq in H1.
  assert (F : flag c fi (c_src c (fst x) k) = true). { rewrite <- (t_port T); auto; [|lia]. eapply Permutation_in; [apply Permutation_sym; eauto|auto]. }
  apply (t_once T) in F. rewrite (proj1 (Permutation_count_occ source_eq_dec _ _) (uses_perm c _ _ P)), E in F. rewrite count_occ_app in F. cbn [count_occ] in F. destruct (source_eq_dec _ _); [|congruence].
  split; intros Hin; apply (count_occ_In source_eq_dec) in Hin; lia.
Qed.

Section Linear.
Variables (c p r : circuit) (f : nat -> nat) (i : nat -> source) (off : nat) (l lp lr : list (nat * Op)).
Hypothesis Hc : schedule c l.
Hypothesis Hp : schedule p lp.
Hypothesis Hr : schedule r lr.
Hypothesis Em : embedding ain p c f i.
Hypothesis Cv : convex ain p c f i.
Hypothesis Cl : closed ain p c f.
Hypothesis Hin : c_inputs p = c_inputs r.
Hypothesis Hout : length (c_outs p) = length (c_outs r).
Hypothesis Hw : forall w, In w (c_outs p) -> exists n j, w = Out n j.
Hypothesis Hu : forall k, k < c_inputs p -> exists x q, In x (c_nodes p) /\ q < ain (snd x) /\ c_src p (fst x) q = Inp k.
Hypothesis Hf : forall x, In x (c_nodes c) -> fst x < off.
Variable g : nat -> bool.
Hypothesis Hg : forall x, In x l -> (g (fst x) = true <-> after ain p c f (fst x)).
Variables (fi fo ei eo : list bool).
Hypothesis Tc : linear_typed c fi fo.
Hypothesis Tp : linear_typed p ei eo.
Hypothesis Tr : linear_typed r ei eo.
Notation d := (replace c p r f i off).
Notation rho := (redirect p r f i off).
Notation bf := (before l g).
Notation af := (aft p f l g).
Notation im := (img f lp).
Notation rp := (rep off lr).
Notation sg := (sigma f i).
Lemma nd_c : NoDup (map fst (c_nodes c)).
Proof. eapply Permutation_NoDup; [apply Permutation_map, Permutation_sym, (v_perm Hc)|apply (v_ids Hc)]. Qed.
Lemma nd_p : NoDup (map fst (c_nodes p)).
Proof. eapply Permutation_NoDup; [apply Permutation_map, Permutation_sym, (v_perm Hp)|apply (v_ids Hp)]. Qed.
Lemma nd_r : NoDup (map fst (c_nodes r)).
Proof. eapply Permutation_NoDup; [apply Permutation_map, Permutation_sym, (v_perm Hr)|apply (v_ids Hr)]. Qed.
Lemma nd_d : NoDup (map fst (c_nodes d)).
Proof. eapply Permutation_NoDup; [apply Permutation_map, Permutation_sym; eapply perm_2 with (g := g); eauto|eapply ids_2; eauto]. Qed.
Lemma known_lr u : In u (uses ain r lr) -> known r lr u.
Proof.
  intros H. apply in_app_or in H. destruct H as [H|H]; [|apply (v_outs Hr); auto]. apply in_flat_map in H. destruct H as (x & Hx & H). destruct (in_split _ _ Hx) as (a & b & E).
  destruct (v_order Hr _ _ _ E _ H) as [K|(y & Hy & K)]; [left; auto|]. right. exists y. split; auto. rewrite E. apply in_or_app. auto.
Qed.
Lemma known_lt n j : known c l (Out n j) -> n < off.
Proof. intros [(k & E & _)|(y & Hy & K)]; [discriminate|]. apply (out_id _ aout) in K. destruct K as (j' & [= -> _]). apply Hf. apply (in_l c l Hc); auto. Qed.
Lemma before_known w : known c bf w -> known c l w.
Proof. intros [K|(y & Hy & K)]; [left; auto|right; exists y; split; auto]. apply filter_In in Hy. tauto. Qed.
Lemma ib k : k < c_inputs p -> known c bf (i k).
Proof. exact (input_before c p r f i l lp Hc Hp Em Cv Hin Hout Hu g Hg k). Qed.
Lemma kbn w : known c bf w -> forall n j, w = Out n j -> ~ image p f n.
Proof. exact (known_before_not c p f l g Hg w). Qed.
Lemma p1 : Permutation l (bf ++ im ++ af).
Proof. eapply perm_1; eauto. Qed.
Lemma p2 : Permutation (c_nodes d) (bf ++ rp ++ af).
Proof. exact (perm_2 c p r f i off l lp lr Hc Hp Hr Em Hin Hout Hf g Hg). Qed.
(** Flags agree. *)
Lemma flag_sigma w : known p lp w -> flag c fi (sg w) = flag p ei w.
Proof.
  intros [(k & -> & Hk)|(y & Hy & K)].
  - cbn [sigma]. destruct (Hu k Hk) as (x & q & H1 & H2 & H3). assert (E := t_port Tp x q H1 H2). rewrite H3 in E. rewrite <- E. assert (E' := t_port Tc (f (fst x), snd x) q (e_op Em _ H1) H2). cbn [fst snd] in E'. rewrite E', (e_wire Em) by auto. rewrite H3. reflexivity.
  - apply (out_id _ aout) in K. destruct K as (j & ->). assert (Hy' : In y (c_nodes p)) by (apply (in_lp p lp Hp); auto). cbn [sigma]. rewrite (flag_node p ei y j nd_p Hy'). apply (flag_node c fi (f (fst y), snd y) j nd_c). apply (e_op Em). auto.
Qed.
Lemma flag_host w : known c l w -> (forall n j, w = Out n j -> ~ image p f n) -> flag d fi w = flag c fi w.
Proof.
  intros [(k & -> & Hk)|(y & Hy & K)] N; [reflexivity|]. apply (out_id _ aout) in K. destruct K as (j & ->). assert (Hy' : In y (c_nodes c)) by (apply (in_l c l Hc); auto).
  rewrite (flag_node c fi y j nd_c Hy'). apply (flag_node d fi y j nd_d). cbn [c_nodes replace]. apply in_or_app. left. apply filter_In. split; auto. apply negb_true_iff. apply in_image_not. apply (N _ _ eq_refl).
Qed.
Lemma flag_place u : known r lr u -> flag d fi (place i off u) = flag r ei u.
Proof.
  intros [(k & -> & Hk)|(y & Hy & K)].
  - rewrite <- Hin in Hk. cbn [place]. assert (Kb : known c bf (i k)) by (apply ib; auto). rewrite flag_host; [|apply before_known; auto|apply kbn; auto].
    change (i k) with (sg (Inp k)). rewrite flag_sigma by (left; eauto). reflexivity.
  - apply (out_id _ aout) in K. destruct K as (j & ->). assert (Hy' : In y (c_nodes r)) by (apply (in_lr r lr Hr); auto). cbn [place]. rewrite (flag_node r ei y j nd_r Hy').
    apply (flag_node d fi (off + fst y, snd y) j nd_d). cbn [c_nodes replace]. apply in_or_app. right. apply in_map_iff. eauto.
Qed.
Lemma nth_flags k v u : nth_error (c_outs p) k = Some v -> nth_error (c_outs r) k = Some u -> flag p ei v = flag r ei u.
Proof.
  intros Hv Hu'. assert (E : map (flag p ei) (c_outs p) = map (flag r ei) (c_outs r)) by (rewrite (t_outs Tp), (t_outs Tr); auto).
  assert (E' : nth_error (map (flag p ei) (c_outs p)) k = nth_error (map (flag r ei) (c_outs r)) k) by congruence. rewrite !nth_error_map, Hv, Hu' in E'. cbn in E'. congruence.
Qed.
(** What [rho] does to a value that is used outside the image. *)
Lemma rho_cases v : (exists x, In x l /\ ~ image p f (fst x) /\ In v (ins c x)) \/ In v (c_outs c) ->
  (rho v = v /\ forall n j, v = Out n j -> ~ image p f n) \/
  exists k w u, nth_error (c_outs p) k = Some w /\ nth_error (c_outs r) k = Some u /\ v = sg w /\ rho v = place i off u.
Proof.
  intros U. destruct (outside_use c p r f l Hc Cl Hin Hout v U) as [N|(n & j & -> & Ho)].
  - left. split; auto. exact (rho_id p r f i off lp Hp Hw v N).
  - right. unfold redirect. destruct (position (Out (f n) j) (placed_outs p f)) as [k|] eqn:E.
    + apply position_some in E. rewrite (placed_sigma p f i Hw) in E. rewrite nth_error_map in E. destruct (nth_error (c_outs p) k) as [w|] eqn:Ek; [|discriminate]. cbn in E. injection E as E.
      assert (Lk : k < length (c_outs r)) by (rewrite <- Hout; apply nth_error_Some; congruence). destruct (nth_error (c_outs r) k) as [u|] eqn:Er; [|apply nth_error_None in Er; lia].
      exists k, w, u. rewrite (nth_error_nth _ _ _ Er). auto.
    + exfalso. apply (position_none _ _ E). rewrite (placed_sigma p f i Hw). apply in_map_iff. exists (Out n j). auto.
Qed.
Definition Uc : list source := flat_map (ins c) (bf ++ af) ++ c_outs c.
Lemma Uc_use v : In v Uc -> (exists x, In x l /\ ~ image p f (fst x) /\ In v (ins c x)) \/ In v (c_outs c).
Proof.
  intros H. apply in_app_or in H. destruct H as [H|H]; auto. left. apply in_flat_map in H. destruct H as (x & Hx & H). exists x. apply in_app_or in Hx. destruct Hx as [Hx|Hx].
  - rewrite (in_before c p f l g Hg) in Hx. destruct Hx as [H1 H2]. split; auto. split; auto. intros Hi. apply H2. apply img_after. auto.
  - rewrite (in_aft c p f l g Hg) in Hx. tauto.
Qed.
Lemma use_known v : (exists x, In x l /\ ~ image p f (fst x) /\ In v (ins c x)) \/ In v (c_outs c) -> known c l v.
Proof. intros [(x & Hx & _ & H)|H]; [eapply known_in; eauto|apply (v_outs Hc); auto]. Qed.
Lemma uses_c : Permutation (uses ain c (c_nodes c)) (Uc ++ flat_map (ins c) im).
Proof.
  eapply Permutation_trans; [apply uses_perm; eapply Permutation_trans; [apply (v_perm Hc)|apply p1]|].
  unfold uses, Uc. rewrite !flat_map_app. rewrite <- !app_assoc. apply Permutation_app_head. rewrite !app_assoc. eapply Permutation_trans; [|apply Permutation_app_comm]. rewrite <- app_assoc. apply Permutation_refl.
Qed.
Lemma uses_d : Permutation (uses ain d (c_nodes d)) (map rho Uc ++ map (place i off) (flat_map (ins r) lr)).
Proof.
  assert (A : forall xs, (forall x, In x xs -> fst x < off) -> flat_map (ins d) xs = map rho (flat_map (ins c) xs)).
  { induction xs as [|x xs IH]; intros H; cbn [flat_map]; auto. rewrite map_app, ins_host by (apply H; now left). f_equal. apply IH. intros; apply H; now right. }
  assert (R : flat_map (ins d) rp = map (place i off) (flat_map (ins r) lr)).
  { unfold rep. assert (G : forall ys, flat_map (ins d) (map (fun x : nat * Op => (off + fst x, snd x)) ys) = map (place i off) (flat_map (ins r) ys)); [|apply G]. induction ys as [|x xs IH]; cbn [map flat_map]; auto. rewrite ins_rep, map_app by auto. f_equal. auto. }
  eapply Permutation_trans; [apply uses_perm; apply p2|]. unfold uses, Uc. rewrite !flat_map_app, !map_app, R.
  assert (Lt : forall x, In x l -> fst x < off) by (intros x Hx; apply Hf; apply (in_l c l Hc); auto).
  rewrite (A bf), (A af) by (intros x Hx; apply filter_In in Hx; apply Lt; tauto). rewrite <- !app_assoc. apply Permutation_app_head. rewrite !app_assoc. eapply Permutation_trans; [|apply Permutation_app_comm]. rewrite <- app_assoc. apply Permutation_refl.
Qed.
Lemma count_c w : count_occ source_eq_dec (uses ain c (c_nodes c)) w = count_occ source_eq_dec Uc w + count_occ source_eq_dec (flat_map (ins c) im) w.
Proof. rewrite (proj1 (Permutation_count_occ source_eq_dec _ _) uses_c), count_occ_app. reflexivity. Qed.
Lemma ins_img : flat_map (ins c) im = map sg (flat_map (ins p) lp).
Proof.
  unfold img. assert (S : forall x, In x lp -> In x (c_nodes p)) by (intros x; apply (in_lp p lp Hp); auto). clear - Em S. induction lp as [|x xs IH]; cbn [map flat_map]; auto. rewrite map_app. f_equal; [|apply IH; intros; apply S; now right].
  unfold PatSpec.ins. rewrite map_map. apply map_ext_in. intros k Hk. apply in_seq in Hk. cbn [fst snd]. apply (e_wire Em); [apply S; now left|lia].
Qed.
Lemma input_in k : k < c_inputs p -> In (Inp k) (flat_map (ins p) lp).
Proof. intros Hk. destruct (Hu k Hk) as (x & q & H1 & H2 & H3). apply in_flat_map. exists x. split; [apply (in_lp p lp Hp); auto|]. rewrite <- H3. apply in_map_iff. exists q. split; auto. apply in_seq. lia. Qed.
(** Inputs of the image whose value cannot be copied. *)
Lemma input_only k : k < c_inputs p -> flag c fi (i k) = true -> ~ In (i k) Uc /\ forall k', k' < c_inputs p -> i k' = i k -> k' = k.
Proof.
  intros Hk F. assert (Q := t_once Tc _ F). rewrite count_c in Q. assert (M : 1 <= count_occ source_eq_dec (flat_map (ins c) im) (i k)).
  { apply count_occ_In. rewrite ins_img. apply in_map_iff. exists (Inp k). split; auto. apply input_in; auto. }
  split.
  - intros H. apply (count_occ_In source_eq_dec) in H. lia.
  - intros k' Hk' E. destruct (Nat.eq_dec k' k) as [|Ne]; auto. exfalso. assert (2 <= count_occ source_eq_dec (flat_map (ins c) im) (i k)); [|lia].
    rewrite ins_img. apply (count_two _ _ _ _ (Inp k') (Inp k)); auto; try (apply input_in; auto). congruence.
Qed.
Lemma count_r u : flag r ei u = true -> count_occ source_eq_dec (flat_map (ins r) lr) u + count_occ source_eq_dec (c_outs r) u <= 1.
Proof. intros F. apply (t_once Tr) in F. rewrite (proj1 (Permutation_count_occ source_eq_dec _ _) (uses_perm r _ _ (v_perm Hr))) in F. unfold uses in F. rewrite count_occ_app in F. lia. Qed.
Lemma once_d w : flag d fi w = true -> count_occ source_eq_dec (uses ain d (c_nodes d)) w <= 1.
Proof.
  intros F. rewrite (proj1 (Permutation_count_occ source_eq_dec _ _) uses_d), count_occ_app.
  destruct (in_dec source_eq_dec w (map (place i off) (uses ain r lr))) as [Hr'|Hr'].
  - apply in_map_iff in Hr'. destruct Hr' as (u & Eu & Hu'). assert (Ku := known_lr u Hu'). assert (Fu : flag r ei u = true) by (rewrite <- flag_place by auto; rewrite Eu; auto).
    assert (Cr := count_r u Fu).
    assert (Un : forall u', In u' (uses ain r lr) -> place i off u' = w -> u' = u).
    { intros u' H' E'. assert (K' := known_lr u' H'). destruct Ku as [(k & -> & Hk)|(y & Hy & K)]; [|apply (out_id _ aout) in K; destruct K as (j & ->)].
      - destruct K' as [(k' & -> & Hk')|(y & Hy & K)]; [|apply (out_id _ aout) in K; destruct K as (j & ->)]; cbn [place] in *.
        + rewrite <- Hin in Hk, Hk'. f_equal. apply (input_only k); auto; [|congruence]. rewrite <- flag_host; [|apply before_known, ib; auto|apply kbn, ib; auto]. rewrite Eu. auto.
        + exfalso. assert (known c bf (i k)) by (apply ib; lia). apply before_known in H. rewrite Eu, <- E' in H. apply known_lt in H. lia.
      - destruct K' as [(k' & -> & Hk')|(y' & Hy' & K)]; [|apply (out_id _ aout) in K; destruct K as (j' & ->)]; cbn [place] in *.
        + exfalso. assert (known c bf (i k')) by (apply ib; lia). apply before_known in H. rewrite E', <- Eu in H. apply known_lt in H. lia.
        + rewrite <- E' in Eu. injection Eu as E1 ->. f_equal. lia. }
    assert (Nw : forall v, In v Uc -> rho v = v -> (forall n j, v = Out n j -> ~ image p f n) -> v <> w).
    { intros v Hv _ _ ->. destruct Ku as [(k & -> & Hk)|(y & Hy & K)]; [|apply (out_id _ aout) in K; destruct K as (j & ->)]; cbn [place] in Eu.
      - rewrite <- Hin in Hk. assert (Q : ~ In (i k) Uc); [|rewrite Eu in Q; auto]. apply input_only; auto. rewrite <- flag_host; [|apply before_known, ib; auto|apply kbn, ib; auto]. rewrite Eu. auto.
      - apply Uc_use, use_known in Hv. rewrite <- Eu in Hv. apply known_lt in Hv. lia. }
    assert (P1 : count_occ source_eq_dec (map (place i off) (flat_map (ins r) lr)) w <= count_occ source_eq_dec (flat_map (ins r) lr) u).
    { apply count_map_le. intros v Hv E. apply Un; auto. apply in_or_app. auto. }
    destruct (in_dec source_eq_dec u (c_outs r)) as [Ho|Ho].
    + apply In_nth_error in Ho. destruct Ho as (k & Hk). assert (Ho : In u (c_outs r)) by (eapply nth_error_In; eauto). apply (count_occ_In source_eq_dec) in Ho.
      assert (Lk : k < length (c_outs p)) by (rewrite Hout; apply nth_error_Some; congruence). destruct (nth_error (c_outs p) k) as [v0|] eqn:Ek; [|apply nth_error_None in Ek; lia].
      assert (F0 : flag c fi (sg v0) = true). { rewrite flag_sigma by (apply (v_outs Hp); eapply nth_error_In; eauto). rewrite (nth_flags k v0 u Ek Hk). auto. }
      assert (P2 : count_occ source_eq_dec (map rho Uc) w <= count_occ source_eq_dec Uc (sg v0)).
      { apply count_map_le. intros v Hv E. destruct (rho_cases v (Uc_use v Hv)) as [[E1 E2]|(k' & w' & u' & H1 & H2 & H3 & H4)].
        - exfalso. apply (Nw v Hv E1 E2). congruence.
        - assert (u' = u) as -> by (apply Un; [apply in_or_app; right; eapply nth_error_In; eauto|congruence]). assert (k' = k) as -> by (eapply (count_index source_eq_dec u (c_outs r)); eauto; lia). congruence. }
      assert (Q := t_once Tc _ F0). rewrite count_c in Q. lia.
    + assert (P2 : count_occ source_eq_dec (map rho Uc) w = 0).
      { apply count_occ_not_In. intros H. apply in_map_iff in H. destruct H as (v & E & Hv). destruct (rho_cases v (Uc_use v Hv)) as [[E1 E2]|(k' & w' & u' & H1 & H2 & H3 & H4)].
        - apply (Nw v Hv E1 E2). congruence.
        - apply Ho. assert (u' = u) as <- by (apply Un; [apply in_or_app; right; eapply nth_error_In; eauto|congruence]). eapply nth_error_In; eauto. }
      lia.
  - assert (P1 : count_occ source_eq_dec (map (place i off) (flat_map (ins r) lr)) w = 0).
    { apply count_occ_not_In. intros H. apply Hr'. apply in_map_iff in H. destruct H as (u & E & H). apply in_map_iff. exists u. split; auto. apply in_or_app. auto. }
    assert (Hv : forall v, In v Uc -> rho v = w -> v = w /\ known c l w /\ forall n j, v = Out n j -> ~ image p f n).
    { intros v Hv E. assert (K := use_known v (Uc_use v Hv)). destruct (rho_cases v (Uc_use v Hv)) as [[E1 E2]|(k' & w' & u' & H1 & H2 & H3 & H4)].
      - assert (v = w) by congruence. subst v. auto.
      - exfalso. apply Hr'. apply in_map_iff. exists u'. split; [congruence|]. apply in_or_app. right. eapply nth_error_In; eauto. }
    destruct (in_dec source_eq_dec w (map rho Uc)) as [H|H]; [|apply (count_occ_not_In source_eq_dec) in H; lia].
    apply in_map_iff in H. destruct H as (v & E & H). destruct (Hv v H E) as (-> & K & N). rewrite flag_host in F by auto. assert (Q := t_once Tc _ F). rewrite count_c in Q.
    assert (count_occ source_eq_dec (map rho Uc) w <= count_occ source_eq_dec Uc w); [|lia]. apply count_map_le. intros v Hv' E'. apply Hv; auto.
Qed.
Lemma flag_rho v : (exists x, In x l /\ ~ image p f (fst x) /\ In v (ins c x)) \/ In v (c_outs c) -> flag d fi (rho v) = flag c fi v.
Proof.
  intros U. destruct (rho_cases v U) as [[E1 E2]|(k & w & u & H1 & H2 & H3 & H4)].
  - rewrite E1. apply flag_host; auto. apply use_known; auto.
  - rewrite H4, H3. rewrite flag_place by (apply (v_outs Hr); eapply nth_error_In; eauto). rewrite flag_sigma by (apply (v_outs Hp); eapply nth_error_In; eauto). symmetry. eapply nth_flags; eauto.
Qed.
Lemma typed_d : linear_typed d fi fo.
Proof.
  constructor.
  - apply (t_ins Tc).
  - intros x k Hx Hk. cbn [c_nodes replace] in Hx. apply in_app_or in Hx. destruct Hx as [Hx|Hx].
    + apply filter_In in Hx. destruct Hx as [Hx Hi]. apply negb_true_iff, in_image_not in Hi. cbn [c_src replace]. rewrite (proj2 (Nat.ltb_lt _ _)) by auto. rewrite flag_rho; [apply (t_port Tc); auto|]. left. exists x. split; [apply (in_l c l Hc); auto|]. split; auto. apply in_map_iff. exists k. split; auto. apply in_seq. lia.
    + apply in_map_iff in Hx. destruct Hx as (y & <- & Hy). cbn [fst snd c_src replace] in *. rewrite (proj2 (Nat.ltb_ge _ _)) by lia. replace (off + fst y - off) with (fst y) by lia.
      rewrite flag_place; [apply (t_port Tr); auto|]. apply known_lr. apply in_or_app. left. apply in_flat_map. exists y. split; [apply (in_lr r lr Hr); auto|]. apply in_map_iff. exists k. split; auto. apply in_seq. lia.
  - cbn [c_outs replace]. rewrite map_map, <- (t_outs Tc). apply map_ext_in. intros v Hv. apply flag_rho. auto.
  - apply once_d.
Qed.
End Linear.

(** ** What depends on the image can be decided *)
Lemma after_dec p c f l : schedule c l -> forall a b, l = a ++ b -> forall x, In x a -> after ain p c f (fst x) \/ ~ after ain p c f (fst x).
Proof.
  intros Hc a. induction a as [|y a IH] using rev_ind; intros b E x Hx; [contradiction|]. rewrite <- app_assoc in E. cbn [app] in E. apply in_app_or in Hx. destruct Hx as [Hx|[<-|[]]]; [eapply IH; eauto|].
  destruct (in_image p f (fst y)) eqn:Ei; [left; apply after_image, in_image_iff; auto|]. apply in_image_not in Ei.
  assert (In_l : forall x, In x l <-> In x (c_nodes c)) by (intros z; split; apply Permutation_in; [apply Permutation_sym|]; apply (v_perm Hc)).
  assert (Hy : In y l) by (rewrite E; apply in_or_app; right; now left).
  assert (D : forall ks, (forall k, In k ks -> k < ain (snd y)) -> (exists k n j, In k ks /\ c_src c (fst y) k = Out n j /\ after ain p c f n) \/ ~ exists k n j, In k ks /\ c_src c (fst y) k = Out n j /\ after ain p c f n).
  { induction ks as [|k ks IHk]; intros Lk; [right; intros (? & ? & ? & [] & _)|]. destruct (IHk (fun k' H => Lk k' (or_intror H))) as [(k' & n & j & H)|N]; [left; exists k', n, j; intuition|].
    assert (K : known c a (c_src c (fst y) k)) by (apply (v_order Hc _ _ _ E); apply in_map_iff; exists k; split; auto; apply in_seq; specialize (Lk k (or_introl eq_refl)); lia).
    destruct K as [(q & Eq & _)|(z & Hz & K)].
    - right. intros (k' & n & j & [<-|H] & H1 & H2); [congruence|]. apply N. exists k', n, j. auto.
    - apply (out_id _ aout) in K. destruct K as (j & Ek). destruct (IH _ E z Hz) as [A|A]; [left; exists k, (fst z), j; split; [now left|auto]|].
      right. intros (k' & n & j' & [<-|H] & H1 & H2); [rewrite Ek in H1; injection H1 as <- <-; auto|]. apply N. exists k', n, j'. auto. }
  destruct (D (seq 0 (ain (snd y)))) as [(k & n & j & H1 & H2 & H3)|N]; [intros k Hk; apply in_seq in Hk; lia| |].
  - left. apply in_seq in H1. apply (after_step _ _ _ _ _ y k n j); auto; [apply In_l; auto|lia].
  - right. intros A. inversion A as [n Hn|x k n j H1 H2 H3 H4 H5]; [contradiction|]. assert (x = y) as -> by (apply (nodup_fst l); auto; [apply (v_ids Hc)|apply In_l; auto]).
    apply N. exists k, n, j. split; auto. apply in_seq. lia.
Qed.
Lemma after_fun p c f l : schedule c l -> exists g, forall x, In x l -> (g (fst x) = true <-> after ain p c f (fst x)).
Proof.
  intros Hc. assert (D := after_dec p c f l Hc l [] (eq_sym (app_nil_r l))). clear Hc. induction l as [|x l IH].
  - exists (fun _ => true). intros x [].
  - destruct IH as (g & Hg); [intros y Hy; apply D; now right|]. destruct (D x (or_introl eq_refl)) as [A|A].
    + exists (fun n => if Nat.eqb n (fst x) then true else g n). intros y Hy. destruct (Nat.eqb_spec (fst y) (fst x)) as [E|E]; [rewrite E; tauto|]. destruct Hy as [->|Hy]; [congruence|auto].
    + exists (fun n => if Nat.eqb n (fst x) then false else g n). intros y Hy. destruct (Nat.eqb_spec (fst y) (fst x)) as [E|E]; [rewrite E; intuition discriminate|]. destruct Hy as [->|Hy]; [congruence|auto].
Qed.

(** ** Replacing a part of a circuit *)
Record replaceable (c p r : circuit) (f : nat -> nat) (i : nat -> source) (off : nat) : Prop := {
  x_embedding : embedding ain p c f i;
  x_convex : convex ain p c f i;
  x_closed : closed ain p c f;
  x_wires : forall w, In w (c_outs p) -> exists n j, w = Out n j;
  x_used : forall k, k < c_inputs p -> exists x q, In x (c_nodes p) /\ q < ain (snd x) /\ c_src p (fst x) q = Inp k;
  x_fresh : forall x, In x (c_nodes c) -> fst x < off }.
Theorem replace_valid c p r f i off l lp lr fi fo ei eo :
  schedule c l -> schedule p lp -> schedule r lr -> replaceable c p r f i off -> linear_typed c fi fo -> linear_typed p ei eo -> linear_typed r ei eo ->
  linear_typed (replace c p r f i off) fi fo /\ exists m, schedule (replace c p r f i off) m.
Proof.
  intros Hc Hp Hr [Em Cv Cl Hw Hu Hf] Tc Tp Tr. destruct (after_fun p c f l Hc) as (g & Hg).
  assert (Hin : c_inputs p = c_inputs r) by (rewrite <- (t_ins Tp), <- (t_ins Tr); auto).
  assert (Hout : length (c_outs p) = length (c_outs r)) by (rewrite <- (map_length (flag p ei)), <- (map_length (flag r ei) (c_outs r)), (t_outs Tp), (t_outs Tr); auto).
  assert (T : linear_typed (replace c p r f i off) fi fo) by (eapply typed_d with (l := l) (lp := lp) (lr := lr) (g := g) (ei := ei) (eo := eo); eauto).
  split; auto. exists (before l g ++ rep off lr ++ aft p f l g). eapply schedule_2 with (lp := lp); eauto. eapply typed_once; eauto. eapply perm_2; eauto.
Qed.
(** The kinds of the values of a typed circuit. *)
Lemma run_kinds c fi fo s l : linear_typed c fi fo -> Permutation (c_nodes c) l -> NoDup (map fst l) -> linear_once c l -> typed_inputs I fi c (fun w => w) s ->
  forall a b, l = a ++ b -> ordered c l -> forall w, known c a w -> kind I (run (map (action_of c) a) s) w = flag c fi w.
Proof.
  intros T P N L Ti a. induction a as [|x a IH] using rev_ind; intros b E O w K.
  - destruct K as [(k & -> & Hk)|(y & [] & _)]. cbn [map run PatSpec.run fold_left flag PatSpec.flag]. apply Ti. auto.
  - rewrite map_app, (run_app _ _ _ _ _ I). cbn [map PatSpec.run fold_left]. rewrite <- app_assoc in E. cbn [app] in E. specialize (IH (x :: b) E O).
    assert (Hx : In x l) by (rewrite E; apply in_or_app; right; now left). assert (Hxn : In x (c_nodes c)) by (eapply Permutation_in; [apply Permutation_sym; exact P|auto]).
    assert (Nc : NoDup (map fst (c_nodes c))) by (eapply Permutation_NoDup; [apply Permutation_map, Permutation_sym; exact P|auto]).
    destruct (in_dec source_eq_dec w (outs x)) as [Ho|Ho].
    + assert (Ho' := Ho). apply In_nth_error in Ho'. destruct Ho' as (j & Hj).
      rewrite (kind_step _ _ _ _ _ I _ (action_of c x) (node_wellformed _ ain aout lin c l x L Hx)) with (j := j) (w := w); auto.
      * cbn [a_op PatSpec.action_of]. unfold PatSpec.outs in Hj. rewrite nth_error_map in Hj. destruct (nth_error (seq 0 (aout (snd x))) j) as [j'|] eqn:Ej; [|discriminate]. cbn in Hj. injection Hj as <-.
        rewrite flag_node by auto. assert (j' = j) as ->; auto. assert (Lj : j < aout (snd x)) by (rewrite <- (seq_length (aout (snd x)) 0); apply nth_error_Some; congruence). apply nth_error_nth with (d := 0) in Ej. rewrite seq_nth in Ej by auto. auto.
      * intros k v Hv. cbn [a_ins a_op PatSpec.action_of] in *. unfold PatSpec.ins in Hv. assert (Lk : k < ain (snd x)) by (rewrite <- (seq_length (ain (snd x)) 0), <- (map_length (c_src c (fst x))); apply nth_error_Some; congruence).
        assert (Ev : v = c_src c (fst x) k). { apply nth_error_nth with (d := c_src c (fst x) 0) in Hv. rewrite map_nth, seq_nth in Hv by auto. auto. }
        rewrite (t_port T x k Hxn Lk), <- Ev. apply IH. apply (O a x b E). rewrite Ev. apply in_map. apply in_seq. lia.
    + rewrite kind_other by auto. apply IH. destruct K as [K|(y & Hy & K)]; [left; auto|]. apply in_app_or in Hy. destruct Hy as [Hy|[<-|[]]]; [right; eauto|contradiction].
Qed.
Theorem replace_equivalent c p r f i off l lp lr fi fo ei eo :
  schedule c l -> schedule p lp -> schedule r lr -> replaceable c p r f i off -> linear_typed c fi fo -> linear_typed p ei eo -> linear_typed r ei eo ->
  interchangeable I ei p r -> equivalent I fi c (replace c p r f i off).
Proof.
  intros Hc Hp Hr [Em Cv Cl Hw Hu Hf] Tc Tp Tr Hi. destruct (after_fun p c f l Hc) as (g & Hg). assert (Hi' := Hi). destruct Hi' as (Hin & Hout & _).
  split; [reflexivity|]. split; [cbn [c_outs replace]; rewrite map_length; reflexivity|]. intros l' m s t Hl' Hm L Ti.
  assert (P2 : Permutation (c_nodes (replace c p r f i off)) (before l g ++ rep off lr ++ aft p f l g)) by (eapply perm_2; eauto).
  assert (Lo : linear_once (replace c p r f i off) (before l g ++ rep off lr ++ aft p f l g)).
  { eapply linear_once_perm; [|apply (v_linear Hm)]. eapply Permutation_trans; [apply Permutation_sym, (v_perm Hm)|exact P2]. }
  assert (S1 : schedule c (before l g ++ img f lp ++ aft p f l g)) by (eapply schedule_1; eauto).
  assert (S2 : schedule (replace c p r f i off) (before l g ++ rep off lr ++ aft p f l g)) by (eapply schedule_2 with (lp := lp); eauto).
  assert (Oi : forall k, map (fst (B := source)) (map (fun k => (Inp k, Inp k)) (seq 0 k)) = map Inp (seq 0 k) /\ map (snd (A := source)) (map (fun k => (Inp k, Inp k)) (seq 0 k)) = map Inp (seq 0 k)) by (intros k; rewrite !map_map; auto).
  assert (Fl : forall k, k < c_inputs p -> flag c fi (i k) = nth k ei false).
  { intros k Hk. change (i k) with (sigma f i (Inp k)). change (nth k ei false) with (flag p ei (Inp k)). eapply flag_sigma with (lp := lp) (l := l) (eo := eo); eauto. left. eauto. }
  eapply like_same; [eapply both with (l := l) (lp := lp) (lr := lr) (g := g) (ei := ei); eauto|apply (schedules_same _ ain aout lin lout I); auto|apply (schedules_same _ ain aout lin lout I); auto].
  - intros k Hk. rewrite <- Fl by auto. eapply run_kinds with (fo := fo); [exact Tc|apply (v_perm S1)|apply (v_ids S1)|apply (v_linear S1)|exact Ti|reflexivity|apply (v_order S1)|]. eapply input_before with (p := p) (f := f) (lp := lp); eauto.
  - intros k k' Hk Hk' Hn E. symmetry. eapply input_only with (fi := fi) (c := c) (p := p) (l := l) (lp := lp) (f := f) (i := i) (k := k); eauto; rewrite Fl; auto.
  - apply like_ok in L. rewrite (proj1 (Oi _)) in L. tauto.
  - apply like_ok in L. rewrite (proj2 (Oi _)) in L. tauto.
Qed.
End Rewrite.
