(** Proofs about rewriting: order of the nodes does not matter, replacing a part by an interchangeable one. *)
From Coq Require Import List Bool Arith Lia Permutation.
From Verif Require Import PatSpec.
Import ListNotations.

Section Order.
Variable Op : Type.
Variables ain aout : Op -> nat.
Variables lin lout : Op -> nat -> bool.
Variable I : interp Op ain aout lin lout.
Notation circuit := (circuit Op).
Notation schedule := (schedule ain aout lin).
Notation ordered := (ordered ain aout).
Notation known := (known aout).
Notation linear_once := (linear_once ain lin).
Notation linear_ins := (linear_ins ain lin).
Notation ins := (ins ain).
Notation outs := (outs aout).
Notation independent := (independent lin).
Notation action_of := (action_of ain aout).
Notation run := (run I).
Notation same := (same I).

Lemma run_app l m s : run (l ++ m) s = run m (run l s).
Proof. apply fold_left_app. Qed.
Lemma run_same l : forall s t, same s t -> same (run l s) (run l t).
Proof. induction l as [|a l IH]; intros s t H; [exact H|]. apply IH. apply act_same. exact H. Qed.
Lemma linear_action c x : a_linear lin (action_of c x) = linear_ins c x.
Proof.
  unfold a_linear, PatSpec.action_of, PatSpec.linear_ins, PatSpec.ins. cbn [a_op a_ins]. rewrite map_length, seq_length. generalize (ain (snd x)). intros n. generalize 0. induction n as [|n IH]; intros b; cbn [seq map combine filter]; auto.
  cbn [fst]. destruct (lin (snd x) b); cbn [map snd]; rewrite IH; auto.
Qed.
Lemma linear_in c x w : In w (linear_ins c x) -> In w (ins c x).
Proof. unfold PatSpec.linear_ins, PatSpec.ins. intros H. apply in_map_iff in H. destruct H as (k & <- & H). apply filter_In in H. apply in_map. tauto. Qed.
Lemma out_id x w : In w (outs x) -> exists j, w = Out (fst x) j.
Proof. intros H. apply in_map_iff in H. destruct H as (j & <- & _). eauto. Qed.
(** Two nodes, neither of which uses the other. *)
Lemma indep_nodes c l x y : NoDup (map fst l) -> linear_once c l -> In x l -> In y l -> x <> y ->
  (forall w, In w (outs x) -> ~ In w (ins c y)) -> (forall w, In w (outs y) -> ~ In w (ins c x)) -> independent (action_of c x) (action_of c y).
Proof.
  intros N L Hx Hy Ne A B.
  assert (Nf : fst x <> fst y).
  { intros E. apply Ne. clear - N Hx Hy E. induction l as [|z l IH]; [contradiction|]. inversion N as [|? ? N1 N2]; subst. destruct Hx as [->|Hx], Hy as [->|Hy]; auto.
    - exfalso. apply N1. rewrite E. apply in_map; auto.
    - exfalso. apply N1. rewrite <- E. apply in_map; auto. }
  assert (Sh : forall u v w, In u l -> In v l -> u <> v -> In w (linear_ins c u) -> ~ In w (ins c v)).
  { intros u v w Hu Hv Nuv Lu Iv. destruct (in_split _ _ Hu) as (l1 & l2 & E). rewrite E in Hv. assert (U : In v l1 \/ In v l2) by (apply in_app_or in Hv; destruct Hv as [?|[?|?]]; auto; congruence).
    destruct (in_split _ _ (linear_in _ _ _ Lu)) as (i1 & i2 & Ei).
    assert (Q : uses ain c l = (flat_map (ins c) l1 ++ i1) ++ w :: (i2 ++ flat_map (ins c) l2 ++ c_outs c)).
    { unfold uses. rewrite E, flat_map_app. cbn [flat_map]. rewrite Ei. rewrite <- !app_assoc. cbn [app]. reflexivity. }
    destruct (L u w Hu Lu _ _ Q) as [Q1 Q2]. destruct U as [U|U].
    - apply Q1. apply in_or_app. left. apply in_flat_map. eauto.
    - apply Q2. apply in_or_app. right. apply in_or_app. left. apply in_flat_map. eauto. }
  unfold PatSpec.independent. rewrite !linear_action. cbn [a_ins a_outs PatSpec.action_of]. split; [|split; [|split]].
  - intros w Hw. split; [apply A; auto|]. intros Hy'. apply out_id in Hw, Hy'. destruct Hw as [? ->], Hy' as [? E]. injection E as E _. auto.
  - intros w Hw. split; [apply B; auto|]. intros Hx'. apply out_id in Hw, Hx'. destruct Hw as [? ->], Hx' as [? E]. injection E as E _. auto.
  - intros w Hw. apply (Sh x y); auto.
  - intros w Hw. apply (Sh y x); auto.
Qed.
(** Nodes whose inputs are in [W] or come from earlier nodes. *)
Definition avail (c : circuit) (W : list source) (l : list (nat * Op)) : Prop := forall a x b, l = a ++ x :: b -> forall w, In w (ins c x) -> In w W \/ exists y, In y a /\ In w (outs y).
Definition fresh (W : list source) (l : list (nat * Op)) : Prop := forall x w, In x l -> In w (outs x) -> ~ In w W.
Definition used (c : circuit) (W : list source) (x : nat * Op) : list source := filter (fun w => if in_dec source_eq_dec w (linear_ins c x) then false else true) W ++ outs x.
Lemma in_used c W x w : In w (used c W x) <-> (In w W /\ ~ In w (linear_ins c x)) \/ In w (outs x).
Proof. unfold used. rewrite in_app_iff, filter_In. destruct (in_dec source_eq_dec w (linear_ins c x)); intuition; discriminate. Qed.
Lemma avail_step c W x l : avail c W (x :: l) -> (forall y w, In y l -> In w (linear_ins c x) -> ~ In w (ins c y)) -> avail c (used c W x) l.
Proof.
  intros A L a y b E w Hw. destruct (A (x :: a) y b) with (w := w) as [H|(z & [<-|Hz] & H)]; auto.
  - rewrite E. reflexivity.
  - left. apply in_used. left. split; auto. intros Hl. apply (L y w); auto. rewrite E. apply in_or_app. right. now left.
  - left. apply in_used. auto.
  - right. eauto.
Qed.
Lemma fresh_step c W x l : fresh W (x :: l) -> NoDup (map fst (x :: l)) -> fresh (used c W x) l.
Proof.
  intros F N y w Hy Hw H. inversion N as [|? ? N1 N2]; subst. apply in_used in H. destruct H as [[H _]|H]; [apply (F y w); auto; now right|].
  apply out_id in Hw, H. destruct Hw as [j ->], H as [j' E]. injection E as E _. apply N1. rewrite <- E. apply in_map. auto.
Qed.
Lemma outs_ok x : NoDup (outs x) /\ length (outs x) = aout (snd x).
Proof. unfold PatSpec.outs. split; [apply FinFun.Injective_map_NoDup; [intros ? ? E; injection E; auto|apply seq_NoDup]|rewrite map_length, seq_length; reflexivity]. Qed.
Lemma nodup_parts {A} (l : list A) : (forall w a b, l = a ++ w :: b -> ~ In w a) -> NoDup l.
Proof.
  intros H. induction l as [|x l IH]; constructor.
  - intros Hx. apply in_split in Hx. destruct Hx as (a & b & ->). apply (H x (x :: a) b eq_refl). now left.
  - apply IH. intros w a b -> Hw. apply (H w (x :: a) b eq_refl). now right.
Qed.
Lemma map_filter_split {A B} (f : A -> B) (q : A -> bool) l : forall a w b, map f (filter q l) = a ++ w :: b -> exists l1 x l2, l = l1 ++ x :: l2 /\ w = f x /\ incl a (map f l1).
Proof.
  induction l as [|y l IH]; intros a w b E; cbn [filter map] in E; [destruct a; discriminate|]. destruct (q y).
  - cbn [map] in E. destruct a as [|z a]; cbn [app] in E; injection E as <- E.
    + exists [], y, l. split; auto. split; auto. intros ? [].
    + destruct (IH _ _ _ E) as (l1 & x & l2 & -> & -> & Hi). exists (y :: l1), x, l2. split; auto. split; auto. intros v [<-|Hv]; [now left|right; apply Hi; auto].
  - destruct (IH _ _ _ E) as (l1 & x & l2 & -> & -> & Hi). exists (y :: l1), x, l2. split; auto. split; auto. intros v Hv. right. apply Hi. auto.
Qed.
Lemma linear_nodup c l x : linear_once c l -> In x l -> NoDup (linear_ins c x).
Proof.
  intros L Hx. apply nodup_parts. intros w a b E Ha. destruct (in_split _ _ Hx) as (l1 & l2 & El).
  assert (Lw : In w (linear_ins c x)) by (rewrite E; apply in_or_app; right; now left).
  destruct (map_filter_split _ _ _ _ _ _ E) as (n1 & n & n2 & En & -> & Hi).
  assert (Q : uses ain c l = (flat_map (ins c) l1 ++ map (c_src c (fst x)) n1) ++ c_src c (fst x) n :: (map (c_src c (fst x)) n2 ++ flat_map (ins c) l2 ++ c_outs c)).
  { unfold uses. rewrite El, flat_map_app. cbn [flat_map]. unfold PatSpec.ins at 2. rewrite En, map_app. cbn [map]. rewrite <- !app_assoc. cbn [app]. reflexivity. }
  destruct (L x _ Hx Lw _ _ Q) as [Q1 _]. apply Q1. apply in_or_app. right. apply Hi. exact Ha.
Qed.
Lemma node_wellformed c l x : linear_once c l -> In x l -> wellformed ain aout lin (action_of c x).
Proof.
  intros L Hx. destruct (outs_ok x) as [N Ln]. split; [|split; [|split]]; auto.
  - cbn [a_ins a_op PatSpec.action_of]. unfold PatSpec.ins. rewrite map_length, seq_length. reflexivity.
  - rewrite linear_action. apply (linear_nodup c l); auto.
Qed.
Lemma ok_node c W x s : wellformed ain aout lin (action_of c x) -> ok I W s -> incl (ins c x) W -> (forall w, In w (outs x) -> ~ In w W) -> ok I (used c W x) (act I (action_of c x) s).
Proof.
  intros Wf O Hi F. assert (Q := ok_step _ _ _ _ _ I W s (action_of c x) O Wf Hi F). unfold after_use in Q. rewrite linear_action in Q. exact Q.
Qed.
(** A node can move to the front of nodes that it does not depend on. *)
Lemma swap_nodes c x a : forall W s, ok I W s -> avail c W a -> incl (ins c x) W -> fresh W (x :: a) -> NoDup (map fst a) -> (forall b, In b (x :: a) -> wellformed ain aout lin (action_of c b)) ->
  (forall b, In b a -> independent (action_of c x) (action_of c b)) -> (forall y z w, In y a -> In z a -> y <> z -> In w (linear_ins c y) -> ~ In w (ins c z)) ->
  same (run (action_of c x :: map (action_of c) a) s) (run (map (action_of c) a ++ [action_of c x]) s).
Proof.
  induction a as [|b a IH]; intros W s O A Hx F N Wf Hi Hl; [apply same_refl|]. cbn [app map].
  change (run (action_of c b :: map (action_of c) a ++ [action_of c x]) s) with (run (map (action_of c) a ++ [action_of c x]) (act I (action_of c b) s)).
  change (run (action_of c x :: action_of c b :: map (action_of c) a) s) with (run (map (action_of c) a) (act I (action_of c b) (act I (action_of c x) s))).
  assert (Hb : incl (ins c b) W) by (intros w Hw; destruct (A [] b a eq_refl w Hw) as [?|(y & [] & _)]; auto).
  assert (Ib := Hi b (or_introl eq_refl)). inversion N as [|? ? N1 N2]; subst.
  eapply same_trans; [|apply (IH (used c W b))].
  - change (run (action_of c x :: map (action_of c) a) (act I (action_of c b) s)) with (run (map (action_of c) a) (act I (action_of c x) (act I (action_of c b) s))). apply run_same. apply same_sym.
    apply commute with (L := W); auto; [apply Wf; now left|apply Wf; right; now left|intros w Hw; apply (F x w); auto; now left|intros w Hw; apply (F b w); auto; right; now left].
  - apply ok_node; auto; [apply Wf; right; now left|]. intros w Hw. apply (F b w); auto. right. now left.
  - apply avail_step; auto. intros y w Hy Hw. apply (Hl b y w); auto; [now left|now right|]. intros ->. apply N1. apply in_map. auto.
  - intros w Hw. apply in_used. left. split; [apply Hx; auto|]. intros Hl'. destruct Ib as (_ & _ & _ & I4). rewrite linear_action in I4. apply (I4 w); auto.
  - intros y w [<-|Hy] Hw H; apply in_used in H; destruct H as [[H _]|H].
    + apply (F x w); auto. now left.
    + destruct Ib as (I1 & _). apply (I1 w); auto.
    + apply (F y w); auto. right. now right.
    + apply out_id in Hw, H. destruct Hw as [j ->], H as [j' E]. injection E as E _. apply N1. rewrite <- E. apply in_map. auto.
  - auto.
  - intros y [<-|Hy]; apply Wf; [now left|right; now right].
  - intros y Hy. apply Hi. now right.
  - intros y z w Hy Hz. apply Hl; now right.
Qed.
Lemma sep_nodes c l x y w : NoDup (map fst l) -> linear_once c l -> In x l -> In y l -> x <> y -> In w (linear_ins c x) -> ~ In w (ins c y).
Proof.
  intros N L Hx Hy Ne Lw Hi. destruct (in_split _ _ Hx) as (l1 & l2 & E). rewrite E in Hy. assert (U : In y l1 \/ In y l2) by (apply in_app_or in Hy; destruct Hy as [?|[?|?]]; auto; congruence).
  destruct (in_split _ _ (linear_in _ _ _ Lw)) as (i1 & i2 & Ei).
  assert (Q : uses ain c l = (flat_map (ins c) l1 ++ i1) ++ w :: (i2 ++ flat_map (ins c) l2 ++ c_outs c)).
  { unfold uses. rewrite E, flat_map_app. cbn [flat_map]. rewrite Ei. rewrite <- !app_assoc. cbn [app]. reflexivity. }
  destruct (L x w Hx Lw _ _ Q) as [Q1 Q2]. destruct U as [U|U].
  - apply Q1. apply in_or_app. left. apply in_flat_map. eauto.
  - apply Q2. apply in_or_app. right. apply in_or_app. left. apply in_flat_map. eauto.
Qed.
Lemma avail_no c W a x b y w : avail c W (a ++ x :: b) -> fresh W (a ++ x :: b) -> NoDup (map fst (a ++ x :: b)) -> In y (x :: b) -> In w (outs y) -> ~ In w (ins c x).
Proof.
  intros A F N Hy Hw Hi. destruct (A a x b eq_refl w Hi) as [H|(z & Hz & Hwz)]; [apply (F y w); auto; apply in_or_app; auto|].
  apply out_id in Hw, Hwz. destruct Hw as [j ->], Hwz as [j' E]. injection E as E _. rewrite map_app in N.
  assert (X : In (fst y) (map fst a)) by (rewrite E; apply in_map; auto). assert (Y : In (fst y) (map fst (x :: b))) by (apply in_map; auto).
  revert N X Y. generalize (map fst (x :: b)) (map fst a) (fst y). clear. intros m l n. induction l as [|h l IH]; [contradiction|]. cbn [app]. intros N X Y. inversion N as [|? ? N1 N2]; subst. destruct X as [->|X]; [apply N1; apply in_or_app; auto|auto].
Qed.
Lemma reorder c : forall m l W s, Permutation l m -> NoDup (map fst l) -> avail c W l -> avail c W m -> fresh W l -> ok I W s ->
  forall (L' : list (nat * Op)), incl l L' -> NoDup (map fst L') -> linear_once c L' ->
  same (run (map (action_of c) l) s) (run (map (action_of c) m) s).
Proof.
  induction m as [|x m IH]; intros l W s P N Al Am F O L' Il N' L''.
  - apply Permutation_sym, Permutation_nil in P. subst l. apply same_refl.
  - assert (Hx : In x l) by (eapply Permutation_in; [apply Permutation_sym; exact P|now left]). destruct (in_split _ _ Hx) as (a & b & ->).
    assert (P' : Permutation (a ++ b) m) by (apply Permutation_cons_inv with (a := x); eapply Permutation_trans; [apply Permutation_middle|exact P]).
    assert (Nxa : forall y, In y (a ++ b) -> y <> x) by (intros y Hy ->; rewrite map_app in N; cbn [map] in N; apply NoDup_remove_2 in N; apply N; rewrite <- map_app; apply in_map; auto).
    assert (Hxw : incl (ins c x) W) by (intros w Hw; destruct (Am [] x m eq_refl w Hw) as [?|(y & [] & _)]; auto).
    assert (In1 : incl (a ++ b) (a ++ x :: b)) by (intros z Hz; apply in_app_or in Hz; apply in_or_app; destruct Hz; auto; right; now right).
    assert (Fm : fresh W (x :: m)) by (intros y w Hy; apply F; eapply Permutation_in; [apply Permutation_sym; exact P|auto]).
    assert (Nm : NoDup (map fst (x :: m))) by (eapply Permutation_NoDup; [apply Permutation_map; exact P|auto]).
    rewrite map_app. cbn [map]. change (action_of c x :: map (action_of c) b) with ([action_of c x] ++ map (action_of c) b). rewrite app_assoc, run_app.
    assert (Q : same (run (map (action_of c) a ++ [action_of c x]) s) (run (action_of c x :: map (action_of c) a) s)).
    { apply same_sym. apply (swap_nodes c x a W); auto.
      - intros a1 y a2 -> w Hw. apply (Al a1 y (a2 ++ x :: b)); auto. rewrite <- app_assoc. reflexivity.
      - intros y w [<-|Hy] Hw; [apply (F x w); auto|apply (F y w); auto; apply in_or_app; auto].
      - rewrite map_app in N. clear - N. induction (map fst a) as [|h hs IHh]; [constructor|]. cbn [app] in N. inversion N as [|? ? N1 N2]; subst. constructor; auto. intros H. apply N1. apply in_or_app. auto.
      - intros y Hy. apply (node_wellformed c L'); auto. apply Il. apply in_or_app. destruct Hy as [<-|Hy]; [right; now left|auto].
      - intros y Hy. apply (indep_nodes c L'); [exact N'|exact L''| | | | |].
        + apply Il. apply in_or_app. right. now left.
        + apply Il. apply in_or_app. auto.
        + intros <-. apply (Nxa x); auto. apply in_or_app. auto.
        + intros w Hw Hi. destruct (in_split _ _ Hy) as (a1 & a2 & ->). rewrite <- app_assoc in *. cbn [app] in *. apply (avail_no c W a1 y (a2 ++ x :: b) x w); auto. right. apply in_or_app. right. now left.
        + intros w Hw Hi. apply (avail_no c W [] x m y w); auto. right. eapply Permutation_in; [exact P'|]. apply in_or_app; auto.
      - intros y z w Hy Hz Ne Hw. apply (sep_nodes c L' y z); auto; apply Il; apply in_or_app; auto. }
    eapply same_trans; [apply run_same; exact Q|]. change (action_of c x :: map (action_of c) a) with ([action_of c x] ++ map (action_of c) a). rewrite run_app, <- run_app, <- map_app.
    change (run (action_of c x :: map (action_of c) m) s) with (run (map (action_of c) m) (run [action_of c x] s)).
    apply IH with (L' := L') (W := used c W x); auto.
    + rewrite map_app in *. cbn [map] in N. apply NoDup_remove_1 in N. exact N.
    + intros a1 z b1 E w Hw. assert (Z : exists a2 b2, a ++ x :: b = a2 ++ z :: b2 /\ incl a2 (x :: a1)).
      { clear - E. revert a1 E. induction a as [|h a IHa]; intros a1 E; cbn [app] in *.
        - exists (x :: a1), b1. rewrite E. split; auto. intros ? ?; auto.
        - destruct a1 as [|h1 a1]; cbn [app] in E; injection E as -> E.
          + exists [], (a ++ x :: b). split; auto. intros ? [].
          + destruct (IHa _ E) as (a2 & b2 & E2 & E3). exists (h1 :: a2), b2. rewrite E2. split; auto. intros u [->|Hu]; [right; now left|]. destruct (E3 u Hu) as [->|?]; [now left|right; now right]. }
      destruct Z as (a2 & b2 & E2 & E3). destruct (Al a2 z b2 E2 w Hw) as [H|(y & Hy & H)].
      * left. apply in_used. left. split; auto. intros Hlx. assert (Hz : In z (a ++ b)) by (rewrite E; apply in_or_app; right; now left). apply (sep_nodes c L' x z w); auto.
        intros <-. apply (Nxa x Hz eq_refl).
      * destruct (E3 y Hy) as [<-|Hy']; [left; apply in_used; auto|right; eauto].
    + apply avail_step; auto. intros y w Hy Hw. assert (Hy' : In y (a ++ b)) by (eapply Permutation_in; [apply Permutation_sym; exact P'|auto]). apply (sep_nodes c L' x y w); auto. intros <-. apply (Nxa x Hy' eq_refl).
    + intros y w Hy Hw. apply (fresh_step c W x m Fm Nm y w); auto. eapply Permutation_in; [exact P'|auto].
    + apply ok_node; auto; [apply (node_wellformed c L'); auto|]. intros w Hw. apply (F x w); auto.
    + intros z Hz. apply Il. auto.
Qed.
Definition circuit_inputs (c : circuit) : list source := map Inp (seq 0 (c_inputs c)).
Lemma schedule_avail c l : ordered c l -> avail c (circuit_inputs c) l.
Proof. intros O a x b E w Hw. destruct (O a x b E w Hw) as [(k & -> & Hk)|K]; [left; apply in_map; apply in_seq; lia|right; auto]. Qed.
Theorem schedules_same c l m s : schedule c l -> schedule c m -> ok I (circuit_inputs c) s -> same (run (map (action_of c) l) s) (run (map (action_of c) m) s).
Proof.
  intros A B O. apply reorder with (L' := l) (W := circuit_inputs c); auto.
  - eapply Permutation_trans; [apply Permutation_sym, (v_perm A)|apply (v_perm B)].
  - apply (v_ids A).
  - apply schedule_avail, (v_order A).
  - apply schedule_avail, (v_order B).
  - intros x w _ Hw H. apply out_id in Hw. destruct Hw as [j ->]. apply in_map_iff in H. destruct H as (k & [=] & _).
  - intros ? ?; auto.
  - apply (v_ids A).
  - apply (v_linear A).
Qed.
End Order.
