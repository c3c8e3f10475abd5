(** Invariants and termination of multi-threaded Badger. *)
From Coq Require Import List Bool Arith Lia Permutation.
From Verif Require Import PQueueSpec PQueueModel PQueueProofs BadgerSpec BadgerModel.
Import ListNotations.

Section Abs.
Variables (S P : Type) (ltb : P -> P -> bool).
Lemma abs_push : forall n l sn (s : S) h (c : P) r l' sn', abs_step ltb n (l, sn) (Push s h c) (Pushed r) (l', sn') ->
  (forall e, In e l' -> In e l \/ (e = (h, c, s) /\ ~ In h sn)) /\ incl sn sn' /\ (NoDup sn -> NoDup sn') /\
  (forall x, In x sn' -> In x sn \/ x = h) /\ length l' + length sn <= length l + length sn' /\ length sn <= length sn' /\
  (r = None \/ r = Some (h, c, s)).
Proof.
  intros n l sn s h c r l' sn' H. inversion H; subst; clear H.
  - repeat split; auto using incl_refl.
  - repeat split; auto using incl_refl.
  - match goal with Hp : Permutation l' _ |- _ => rename Hp into Pm end. split; [|split; [|split; [|split; [|split; [|split]]]]]; auto.
    + intros e He. eapply Permutation_in in He; [|exact Pm]. destruct He as [<-|He]; auto.
    + intros x Hx. right. assumption.
    + intro N. constructor; assumption.
    + intros x [<-|Hx]; auto.
    + apply Permutation_length in Pm. unfold entry in *. simpl in *. lia.
    + simpl. lia.
  - match goal with Hp : Permutation (_ :: l') _ |- _ => rename Hp into Pm end. split; [|split; [|split; [|split; [|split; [|split]]]]]; auto.
    + intros e He. assert (X : In e (w :: l')) by (right; assumption). eapply Permutation_in in X; [|exact Pm]. destruct X as [<-|X]; auto.
    + intros x Hx. right. assumption.
    + intro N. constructor; assumption.
    + intros x [<-|Hx]; auto.
    + apply Permutation_length in Pm. unfold entry in *. simpl in *. lia.
    + simpl. lia.
Qed.
Lemma abs_pop : forall n l sn (r : option (entry S P)) l' sn', abs_step ltb n (l, sn) Pop (Popped r) (l', sn') ->
  sn' = sn /\ match r with None => l' = l | Some e => Permutation l (e :: l') end.
Proof. intros n l sn r l' sn' H. inversion H; subst; auto. Qed.
End Abs.

Section Badger.
Variables (S P D : Type) (ltb : P -> P -> bool).
Hypothesis SW : strict_weak ltb.
Variables (hash : S -> option nat) (rw : S -> list (S * D)) (add_delta : P -> D -> P).
Variable o : options.
Variables (s0 : S) (c0 : P) (h0 : nat) (ties : nat -> nat).
Hypothesis hash0 : hash s0 = Some h0.
Notation st := (st S P).
Notation work := (entry S P).
Notation stepb := (step ltb hash rw add_delta o).

Definition ok (w : work) : Prop := derived rw add_delta s0 c0 (estate w) (ecost w) /\ hash (estate w) = Some (ehash w).
Definition ok_w (w : wstatus S P) : Prop := match w with WBusy _ _ w => ok w | WReady _ _ b => Forall ok b | _ => True end.
Definition ok_m (m : msg S P) : Prop := match m with NewBest _ _ s c => derived rw add_delta s0 c0 s c | _ => True end.
(** The cost is not below the best one, now or after reading the log. *)
Definition covered (bc : P) (lg : list (msg S P)) (c : P) : Prop :=
  ltb c bc = false \/ exists s c', In (NewBest S P s c') lg /\ ltb c c' = false.

Definition qinv (q : pq S P) (hd : list work) : Prop :=
  (exists acc, inv ltb q acc /\ Forall ok acc) /\ NoDup (seen q) /\
  (forall e, In e hd -> In (ehash e) (seen q)) /\ NoDup (map ehash hd) /\
  (forall e, In e (ents q) -> ~ In (ehash e) (map ehash hd)).

Record INV (s : st) : Prop := {
  v_q : qinv (q_pq _ _ s) (handed _ _ s);
  v_push : Forall (Forall ok) (push _ _ s);
  v_handed : Forall ok (handed _ _ s);
  v_enq : Forall ok (enqueued _ _ s);
  v_workers : Forall ok_w (workers _ _ s);
  v_log : Forall ok_m (log _ _ s);
  v_best : derived rw add_delta s0 c0 (best _ _ s) (best_cost _ _ s);
  v_best_cost : ltb c0 (best_cost _ _ s) = false;
  v_local : q_local_max _ _ s = None;
  v_shared : shared_max _ _ s = None;
  v_nopanic : q_status _ _ s <> QPanic;
  v_close : main _ _ s <> MLoop -> q_status _ _ s = QRun -> In [] (push _ _ s);
  v_cov_enq : forall w, In w (enqueued _ _ s) -> covered (best_cost _ _ s) (log _ _ s) (ecost w);
  v_cov_min : forall m, q_min _ _ s = Some m -> covered (best_cost _ _ s) (log _ _ s) m;
  v_end : main _ _ s = MJoin \/ main _ _ s = MDone -> log _ _ s = [] /\ q_status _ _ s = QDone;
  v_alldone : main _ _ s = MDone -> Forall (fun w => w = WDone _ _) (workers _ _ s);
  v_nworkers : length (workers _ _ s) = n_threads o;
  v_cap : max_size (q_pq _ _ s) = queue_size o
}.

Lemma ltb_irrefl : forall a, ltb a a = false.
Proof. intro a. destruct (ltb a a) eqn:E; [|reflexivity]. rewrite <- E. apply (sw_asym SW _ _ E). Qed.

Lemma update_none : forall q sh, (exists acc, inv ltb q acc) -> update_max_cost S P ltb q None sh = Some (None, sh).
Proof.
  intros q sh [acc I]. unfold update_max_cost. destruct (negb (is_full S P q) || is_empty S P q) eqn:E; [reflexivity|].
  destruct (max_cost ltb q) eqn:M; [reflexivity|]. exfalso. unfold max_cost in M.
  destruct (pick (gtb ltb) 0 (queue q)) as [[? ?]|] eqn:Pk; [discriminate|]. apply (pick_none (gtb_sw SW)) in Pk.
  apply orb_false_iff in E. destruct E as [_ E]. unfold is_empty in E. rewrite Pk in E. discriminate.
Qed.

Lemma covered_mono : forall bc lg lg' c, covered bc lg c -> covered bc (lg ++ lg') c.
Proof. intros bc lg lg' c [H|(s & c' & H & L)]; [left; assumption|right]. exists s, c'. split; [apply in_or_app; left; assumption|assumption]. Qed.
Lemma covered_le : forall bc lg a b, covered bc lg a -> ltb b a = false -> covered bc lg b.
Proof.
  intros bc lg a b [H|(s & c' & H & L)] Lb; [left|right].
  - eapply (sw_negtrans SW); eassumption.
  - exists s, c'. split; [assumption|]. eapply (sw_negtrans SW); eassumption.
Qed.

(** Potential: accepted hashes that may still be handed out. *)
Lemma enqueue_ok : forall b q mn lg hd bc, qinv q hd -> Forall ok b -> Forall ok_m lg ->
  (forall m, mn = Some m -> covered bc lg m) ->
  exists q' mn' lg', enqueue S P ltb q mn lg b = Some (q', mn', lg ++ lg') /\ qinv q' hd /\ Forall ok_m (lg ++ lg') /\
    (forall m, mn' = Some m -> covered bc (lg ++ lg') m) /\ (forall w, In w b -> covered bc (lg ++ lg') (ecost w)) /\
    length lg' <= length b /\ max_size q' = max_size q /\
    length (queue q') + length (seen q) <= length (queue q) + length (seen q') /\ length (seen q) <= length (seen q').
Proof.
  induction b as [|w b IH]; intros q mn lg hd bc Q Fb Fl Cm.
  - exists q, mn, []. rewrite !app_nil_r. simpl. repeat split; auto; try lia; try apply Q; try contradiction.
  - inversion Fb as [|? ? Ow Fb']; subst.
    set (is_best := match mn with None => true | Some m => ltb (ecost w) m end).
    set (lg1 := if is_best then [NewBest S P (estate w) (ecost w)] else []).
    set (mn1 := if is_best then Some (ecost w) else mn).
    assert (Cw : covered bc (lg ++ lg1) (ecost w)).
    { unfold lg1. destruct is_best eqn:Ib.
      - right. exists (estate w), (ecost w). split; [apply in_or_app; right; left; reflexivity|apply ltb_irrefl].
      - rewrite app_nil_r. unfold is_best in Ib. destruct mn as [m|]; [|discriminate]. eapply covered_le; [apply Cm; reflexivity|assumption]. }
    assert (Cm1 : forall m, mn1 = Some m -> covered bc (lg ++ lg1) m).
    { unfold mn1. destruct is_best eqn:Ib; intros m Em; [injection Em as <-; assumption|]. unfold lg1. rewrite app_nil_r. apply Cm. assumption. }
    assert (Fl1 : Forall ok_m (lg ++ lg1)).
    { apply Forall_app. split; [assumption|]. unfold lg1. destruct is_best; constructor; [apply Ow|constructor]. }
    destruct Q as ((acc & I & Fa) & Nd & H1 & H2 & H3).
    destruct (push_ok SW (estate w) (ehash w) (ecost w) I) as (q1 & r & Ep & Ab & I1 & Ms & _).
    destruct (abs_push _ _ _ _ _ _ _ _ _ _ _ _ Ab) as (A1 & A2 & A3 & A4 & A5 & A6 & A7).
    assert (Q1 : qinv q1 hd).
    { split; [|split; [|split; [|split]]].
      - exists (acc ++ accepted [Pushed r]). split; [assumption|]. apply Forall_app. split; [assumption|].
        destruct A7 as [->| ->]; simpl; constructor; [|constructor]. destruct w as [[h c] s]. exact Ow.
      - auto.
      - intros e He. apply A2, H1, He.
      - assumption.
      - intros e He. destruct (A1 e He) as [X|[-> X]]; [apply H3; assumption|]. intro Y. apply in_map_iff in Y. destruct Y as (x & Ex & Hx). apply H1 in Hx. rewrite Ex in Hx. apply X. exact Hx. }
    destruct (IH q1 mn1 (lg ++ lg1) hd bc Q1 Fb' Fl1 Cm1) as (q' & mn' & lg2 & E & Q' & F' & C' & Cw' & L' & M' & K' & K'').
    exists q', mn', (lg1 ++ lg2). rewrite !app_assoc.
    assert (L1 : length lg1 <= 1) by (unfold lg1; destruct is_best; simpl; lia).
    split; [|split; [|split; [|split; [|split; [|split; [|split; [|split]]]]]]]; auto.
    + cbn [enqueue]. cbv zeta. fold is_best. rewrite Ep. rewrite <- E. f_equal. unfold lg1. destruct is_best; [reflexivity|]. rewrite app_nil_r. reflexivity.
    + intros x [->|Hx]; [apply covered_mono; assumption|auto].
    + rewrite app_length. simpl. lia.
    + congruence.
    + rewrite <- (ents_length I), <- (ents_length I1) in *. destruct Q' as ((acc' & I' & _) & _). lia.
    + lia.
Qed.

Lemma new_circs_ok : forall w mx, ok w -> Forall ok (new_circs S P D ltb hash rw add_delta w mx).
Proof.
  intros w mx [Dw Hw]. apply Forall_forall. intros x Hx. unfold new_circs in Hx. apply in_flat_map in Hx. destruct Hx as ([s d] & Hr & Hx). simpl in Hx.
  match type of Hx with In _ (if ?b then _ else _) => destruct b end; [destruct Hx|]. destruct (hash s) as [h|] eqn:Eh; [|destruct Hx]. destruct Hx as [<-|[]].
  split; [|assumption]. unfold estate, ecost. simpl. eapply derived_step; eassumption.
Qed.
Lemma new_circs_length : forall w mx, length (new_circs S P D ltb hash rw add_delta w mx) <= length (rw (estate w)).
Proof.
  intros w mx. unfold new_circs. induction (rw (estate w)) as [|r l IH]; simpl; [lia|]. rewrite app_length.
  match goal with |- length (if ?b then _ else _) + _ <= _ => destruct b end; simpl; unfold BadgerModel.work, entry in *; [lia|]. destruct (hash (fst r)); simpl; lia.
Qed.

Lemma set_worker_split : forall ws i (w w' : wstatus S P), nth_error ws i = Some w ->
  exists a b, ws = a ++ w :: b /\ set_worker S P ws i w' = a ++ w' :: b.
Proof.
  intros ws i w w' E. destruct (nth_error_split _ _ E) as (a & b & -> & L). exists a, b. split; [reflexivity|]. subst i. unfold set_worker.
  rewrite firstn_app, Nat.sub_diag, firstn_all. cbn [firstn]. rewrite app_nil_r. f_equal. f_equal.
  rewrite skipn_app. replace (Datatypes.S (length a) - length a) with 1 by lia.
  rewrite (skipn_all2 a) by lia. reflexivity.
Qed.
Lemma Forall_set_worker : forall (Q : wstatus S P -> Prop) ws i w w', nth_error ws i = Some w -> Forall Q ws -> Q w' -> Forall Q (set_worker S P ws i w').
Proof.
  intros Q ws i w w' E F Hw. destruct (set_worker_split ws i w w' E) as (a & b & -> & ->). apply Forall_app in F. destruct F as [Fa Fb]. inversion Fb; subst.
  apply Forall_app. split; [assumption|constructor; assumption].
Qed.
Lemma set_worker_length : forall ws i (w w' : wstatus S P), nth_error ws i = Some w -> length (set_worker S P ws i w') = length ws.
Proof. intros ws i w w' E. destruct (set_worker_split ws i w w' E) as (a & b & -> & ->). rewrite !app_length. reflexivity. Qed.
Lemma Forall_nth : forall (Q : wstatus S P -> Prop) ws i w, nth_error ws i = Some w -> Forall Q ws -> Q w.
Proof. intros Q ws i w E F. eapply Forall_forall; [exact F|]. eapply nth_error_In; exact E. Qed.

Lemma closed_push_ok : forall s : st, Forall (Forall ok) (push _ _ s) -> Forall (Forall ok) (closed_push S P s).
Proof. intros s F. unfold closed_push. destruct (alive S P s); [|assumption]. apply Forall_app. split; [assumption|]. repeat constructor. Qed.
Lemma closed_push_in : forall s : st, q_status _ _ s = QRun -> In [] (closed_push S P s).
Proof. intros s E. unfold closed_push, alive. rewrite E. apply in_or_app. right. left. reflexivity. Qed.

Lemma init_INV : INV (init o s0 c0 h0 ties).
Proof.
  assert (O0 : ok (h0, c0, s0)) by (split; [apply derived_refl|exact hash0]).
  constructor; simpl.
  - split; [exists []; split; [apply inv_new|constructor]|]. simpl. repeat split; auto using NoDup_nil; intros e [].
  - repeat constructor; apply O0.
  - constructor.
  - constructor.
  - apply Forall_forall. intros w Hw. apply repeat_spec in Hw. subst w. exact I.
  - constructor.
  - apply derived_refl.
  - apply ltb_irrefl.
  - reflexivity.
  - reflexivity.
  - discriminate.
  - congruence.
  - intros w [].
  - discriminate.
  - intros [K|K]; discriminate.
  - discriminate.
  - apply repeat_length.
  - reflexivity.
Qed.

(** The queue thread's step. *)
Lemma q_recv_INV : forall s s', INV s -> q_recv S P ltb s = Some s' -> INV s'.
Proof.
  intros s s' V E. unfold q_recv in E. destruct (q_status _ _ s) eqn:Eq; try discriminate.
  destruct (push _ _ s) as [|b rest] eqn:Ep; [discriminate|].
  assert (Fp := v_push _ V). rewrite Ep in Fp. inversion Fp as [|? ? Fb Fr]; subst.
  assert (Hend : ~ (main _ _ s = MJoin \/ main _ _ s = MDone)).
  { intro K. destruct (v_end _ V K) as [_ X]. congruence. }
  destruct b as [|w b].
  - injection E as <-. destruct V. constructor; simpl; auto; try congruence; try tauto.
    + apply Forall_app. split; [assumption|]. repeat constructor.
    + intros w Hw. apply covered_mono. auto.
    + intros m Hm. apply covered_mono. auto.
  - destruct (enqueue_ok (w :: b) (q_pq _ _ s) (q_min _ _ s) (log _ _ s) (handed _ _ s) (best_cost _ _ s) (v_q _ V) Fb (v_log _ V) (v_cov_min _ V))
      as (q' & mn' & lg' & E' & Q' & F' & C' & Cw' & L' & M' & K' & K'').
    rewrite E' in E. rewrite (v_local _ V), (update_none q') in E by (destruct Q' as ((acc & I & _) & _); eauto).
    injection E as <-. destruct V. constructor; simpl; auto; try congruence; try tauto.
    + apply Forall_app. split; assumption.
    + apply Forall_app. split; [assumption|]. repeat constructor.
    + intros Hm _. specialize (v_close0 Hm Eq). rewrite Ep in v_close0. destruct v_close0 as [X|X]; [discriminate|assumption].
    + intros x Hx. apply covered_mono. apply in_app_or in Hx. destruct Hx as [Hx|Hx]; [apply covered_mono; auto|apply Cw'; assumption].
    + intros m Hm. apply covered_mono. auto.
Qed.

Lemma pop_ents : forall (q q' : pq S P) hd e, qinv q hd -> pq_pop ltb q = (q', Some e) -> ok e /\ qinv q' (hd ++ [e]) /\ max_size q' = max_size q /\
  length (queue q) = Datatypes.S (length (queue q')) /\ seen q' = seen q.
Proof.
  intros q q' hd e ((acc & I & Fa) & Nd & H1 & H2 & H3) E.
  destruct (pop_by_ok SW I) as [[Hemp Ee]|(q1 & w & E1 & I1 & Hw & _ & Hperm & Hs1 & Hm1 & _ & _ & Hl1 & _)].
  - unfold pq_pop in E. rewrite Ee in E. discriminate.
  - unfold pq_pop in E. rewrite E1 in E. injection E as -> ->.
    destruct (ents_In e I Hw) as [Hq Ha].
    assert (Ow : ok e) by (eapply Forall_forall; [exact Fa|assumption]).
    split; [assumption|]. split; [|auto].
    assert (Sn : In (ehash e) (seen q)) by (apply (i_seen I), in_map; assumption).
    split; [exists acc; auto|]. rewrite Hs1. split; [assumption|]. split; [|split].
    + intros x Hx. apply in_app_or in Hx. destruct Hx as [Hx|[<-|[]]]; auto.
    + rewrite map_app. simpl. apply NoDup_snoc; [assumption|]. apply H3. assumption.
    + intros x Hx K. rewrite map_app in K. apply in_app_or in K.
      assert (Hx' : In x (ents q)) by (eapply Permutation_in; [symmetry; exact Hperm|right; assumption]).
      destruct K as [K|[K|[]]]; [apply (H3 x Hx'); assumption|].
      assert (Ne : NoDup (map ehash (ents q))).
      { assert (Em : map ehash (ents q) = map fst (queue q)).
        { rewrite <- (ents_queue I) at 1. rewrite map_map. reflexivity. }
        rewrite Em. apply (i_nodup I). }
      eapply Permutation_NoDup in Ne; [|apply Permutation_map; exact Hperm]. simpl in Ne. inversion Ne as [|? ? Ni _]; subst. apply Ni. rewrite K. apply in_map. assumption.
Qed.
Lemma q_give_INV : forall i s s', INV s -> q_give S P ltb i s = Some s' -> INV s'.
Proof.
  intros i s s' V E. unfold q_give in E. destruct (q_status _ _ s) eqn:Eq; try discriminate.
  destruct (nth_error (workers _ _ s) i) as [w|] eqn:Ew; [|discriminate]. destruct w; try discriminate.
  destruct (is_empty S P (q_pq _ _ s)) eqn:Em; [discriminate|].
  destruct (pq_pop ltb (q_pq _ _ s)) as [q1 r] eqn:Ep.
  assert (V' := v_q _ V). destruct V' as ((acc & I & Fa) & _).
  destruct r as [e|].
  2:{ exfalso. destruct (pop_ok SW I) as (q' & r & E' & _ & _ & _ & _ & Hn). rewrite Ep in E'. injection E' as <- <-. destruct (Hn eq_refl) as [K _].
      unfold is_empty in Em. rewrite K in Em. discriminate. }
  destruct (pop_ents _ _ _ _ (v_q _ V) Ep) as (Oe & Q' & Ms & _ & _).
  rewrite (v_local _ V), update_none in E by (destruct Q' as ((acc' & I' & _) & _); eauto).
  injection E as <-.
  assert (Hend : ~ (main _ _ s = MJoin \/ main _ _ s = MDone)).
  { intro K. destruct (v_end _ V K) as [_ X]. congruence. }
  destruct V. constructor; simpl; auto; try congruence; try tauto.
  - apply Forall_app. split; [assumption|]. constructor; [assumption|constructor].
  - eapply Forall_set_worker; eauto.
  - erewrite set_worker_length by eassumption. assumption.
Qed.

Lemma set_w_INV : forall i s w w' pu, INV s -> nth_error (workers _ _ s) i = Some w -> ok_w w' -> w <> WDone _ _ ->
  Forall (Forall ok) pu -> (In [] (push _ _ s) -> In [] pu) -> INV (set_w S P s i w' pu).
Proof.
  intros i s w w' pu V E Hw Nw Hp Hc. destruct V. constructor; simpl; auto.
  - eapply Forall_set_worker; eassumption.
  - intro K. exfalso. apply Nw. apply (Forall_nth _ _ _ _ E (v_alldone0 K)).
  - erewrite set_worker_length by eassumption. assumption.
Qed.

Theorem step_INV : forall a s s', INV s -> stepb a s = Some s' -> INV s'.
Proof.
  intros a s s' V E. destruct a; simpl in E.
  - eapply q_recv_INV; eassumption.
  - eapply q_give_INV; eassumption.
  - unfold w_rewrite in E. destruct (nth_error (workers _ _ s) i) as [w|] eqn:Ew; [|discriminate]. destruct w; try discriminate. injection E as <-.
    apply (set_w_INV _ _ _ _ _ V Ew); [|discriminate|apply (v_push _ V)|auto]. simpl. apply new_circs_ok. apply (Forall_nth _ _ _ _ Ew (v_workers _ V)).
  - unfold w_send in E. destruct (nth_error (workers _ _ s) i) as [w|] eqn:Ew; [|discriminate]. destruct w as [| |b|]; try discriminate.
    assert (Fb : Forall ok b) by apply (Forall_nth _ _ _ _ Ew (v_workers _ V)).
    destruct b as [|x b].
    + injection E as <-. apply (set_w_INV _ _ _ _ _ V Ew); [exact I|discriminate|apply (v_push _ V)|auto].
    + destruct (alive S P s); injection E as <-; (apply (set_w_INV _ _ _ _ _ V Ew); [exact I|discriminate| |]).
      * apply Forall_app. split; [apply (v_push _ V)|]. constructor; [assumption|constructor].
      * intro K. apply in_or_app. left. assumption.
      * apply (v_push _ V).
      * auto.
  - unfold w_stop in E. destruct (nth_error (workers _ _ s) i) as [w|] eqn:Ew; [|discriminate]. destruct w; try discriminate.
    destruct (alive S P s); [discriminate|]. injection E as <-. apply (set_w_INV _ _ _ _ _ V Ew); [exact I|discriminate|apply (v_push _ V)|auto].
  - (* log *)
    unfold m_log in E.
    assert (Hcov : forall b c rest x, log _ _ s = NewBest S P b c :: rest -> ltb c (best_cost _ _ s) = true -> covered (best_cost _ _ s) (log _ _ s) x -> covered c rest x).
    { intros b c rest x El L [K|(s1 & c1 & K & L1)].
      - left. eapply (sw_negtrans SW); [exact K|]. apply (sw_asym SW). assumption.
      - rewrite El in K. destruct K as [K|K]; [injection K as <- <-; left; assumption|right; eauto]. }
    assert (Hcov' : forall b c rest x, log _ _ s = NewBest S P b c :: rest -> ltb c (best_cost _ _ s) = false -> covered (best_cost _ _ s) (log _ _ s) x -> covered (best_cost _ _ s) rest x).
    { intros b c rest x El L [K|(s1 & c1 & K & L1)]; [left; assumption|].
      rewrite El in K. destruct K as [K|K]; [injection K as <- <-; left; eapply (sw_negtrans SW); eassumption|right; eauto]. }
    assert (Hcov2 : forall p n0 k rest x, log _ _ s = StateCount S P p n0 k :: rest -> covered (best_cost _ _ s) (log _ _ s) x -> covered (best_cost _ _ s) rest x).
    { intros p n0 k rest x El [K|(s1 & c1 & K & L1)]; [left; assumption|]. rewrite El in K. destruct K as [K|K]; [discriminate|right; eauto]. }
    assert (Hc0 : forall c, ltb c (best_cost _ _ s) = true -> ltb c0 c = false).
    { intros c L. eapply (sw_negtrans SW); [apply (v_best_cost _ V)|]. apply (sw_asym SW). assumption. }
    assert (Fl := v_log _ V).
    destruct (main _ _ s) eqn:Em; try discriminate; destruct (log _ _ s) as [|[b c|p sn k] rest] eqn:El; try discriminate; inversion Fl as [|? ? Fm Fr]; subst.
    + destruct (ltb c (best_cost _ _ s)) eqn:Lc; injection E as <-; destruct V; constructor; simpl; rewrite ?El, ?Em in *; auto; try congruence; eauto; try (intros [K|K]; congruence).
    + destruct (match max_circuit_count o with Some m => Nat.ltb m sn | None => false end); injection E as <-; destruct V; constructor; simpl; rewrite ?El, ?Em in *; auto; try congruence; eauto; try (intros [K|K]; congruence).
      * apply closed_push_ok. assumption.
      * intros _ K. apply closed_push_in. assumption.
    + destruct (ltb c (best_cost _ _ s)) eqn:Lc; injection E as <-; destruct V; constructor; simpl; rewrite ?El, ?Em in *; auto; try congruence; eauto; try (intros [K|K]; congruence).
    + injection E as <-; destruct V; constructor; simpl; rewrite ?El, ?Em in *; auto; try congruence; eauto; try (intros [K|K]; congruence).
  - unfold m_disconnect in E. unfold alive in E.
    destruct (main _ _ s) eqn:Em; try discriminate; destruct (log _ _ s) as [|m rest] eqn:El; try discriminate;
      destruct (q_status _ _ s) eqn:Eq; try discriminate; injection E as <-; destruct V; try congruence; constructor; simpl; rewrite ?El, ?Em in *; auto; try congruence; eauto; try (intros [K|K]; congruence).
    + apply closed_push_ok. assumption.
  - unfold m_timeout in E. destruct (main _ _ s) eqn:Em; try discriminate. destruct (timeouts o); [|discriminate]. injection E as <-.
    destruct V; constructor; simpl; rewrite ?Em in *; auto; try congruence; eauto; try (intros [K|K]; congruence).
    + apply closed_push_ok. assumption.
    + intros _ K. apply closed_push_in. assumption.
  - unfold m_join in E. destruct (main _ _ s) eqn:Em; try discriminate.
    destruct (forallb _ (workers _ _ s)) eqn:Fw; [|discriminate]. injection E as <-.
    assert (Fd : Forall (fun w => w = WDone S P) (workers _ _ s)).
    { apply Forall_forall. intros w Hw. rewrite forallb_forall in Fw. specialize (Fw w Hw). destruct w; congruence. }
    destruct V; constructor; simpl; rewrite ?Em in *; auto; try congruence; eauto.
    intros _ K. destruct (v_end0 (or_introl eq_refl)). congruence.
Qed.
Theorem reach_INV : forall ls s, exec stepb ls (init o s0 c0 h0 ties) = Some s -> INV s.
Proof.
  enough (G : forall ls s s', INV s -> exec stepb ls s = Some s' -> INV s') by (intros ls s E; eapply G; [apply init_INV|exact E]).
  induction ls as [|l ls IH]; intros s s' V E; simpl in E; [injection E as <-; assumption|].
  destruct (stepb l s) as [s1|] eqn:Es; [|discriminate]. eapply IH; [eapply step_INV; eassumption|exact E].
Qed.
End Badger.
