(** Termination, deadlock and completeness of multi-threaded Badger. *)
From Coq Require Import List Bool Arith Lia Permutation.
From Verif Require Import PQueueSpec PQueueModel PQueueProofs BadgerSpec BadgerModel BadgerProofs.
Import ListNotations.

Lemma abs_push_room : forall S P (ltb : P -> P -> bool) n l sn (s : S) h (c : P) r l' sn', abs_step ltb n (l, sn) (Push s h c) (Pushed r) (l', sn') ->
  length l < n -> (l' = l /\ sn' = sn /\ In h sn) \/ (~ In h sn /\ sn' = h :: sn /\ Permutation l' ((h, c, s) :: l)).
Proof. intros S P ltb n l sn s h c r l' sn' H L. inversion H; subst; auto; lia. Qed.

Section Badger.
Variables (S P D : Type) (ltb : P -> P -> bool).
Hypothesis SW : strict_weak ltb.
Variables (hash : S -> option nat) (rw : S -> list (S * D)) (add_delta : P -> D -> P).
Variable o : options.
Variables (s0 : S) (c0 : P) (h0 : nat) (ties : nat -> nat).
Hypothesis hash0 : hash s0 = Some h0.
Notation st := (st S P).
Notation work := (entry S P).
Notation stepb := (step ltb hash rw add_delta o).
Notation INV := (INV S P D ltb hash rw add_delta o s0 c0).
Notation ok := (ok S P D hash rw add_delta s0 c0).
Local Notation start := (init o s0 c0 h0 ties).

(** ** Measures *)
Definition wl (w : wstatus S P) : nat :=
  match w with WIdle _ _ => 1 | WBusy _ _ w => 5 + length (rw (estate w)) | WReady _ _ b => 4 + length b | WDone _ _ => 0 end.
Definition sum (l : list nat) : nat := fold_right plus 0 l.
Definition pw (pu : list (list work)) : nat := sum (map (fun b => 2 + length b) pu).
Definition ml (m : mstatus) : nat := match m with MLoop => 5 | MDrain => 2 | MJoin => 1 | MDone => 0 end.
Definition sec (s : st) : nat := pw (push _ _ s) + length (log _ _ s) + sum (map wl (workers _ _ s)) + ml (main _ _ s).

Lemma sum_app : forall a b, sum (a ++ b) = sum a + sum b.
Proof. induction a; simpl; intros; [reflexivity|]. rewrite IHa. lia. Qed.
Lemma pw_app : forall a b, pw (a ++ b) = pw a + pw b.
Proof. intros a b. unfold pw. rewrite map_app. apply sum_app. Qed.
Lemma wl_set : forall ws i w w', nth_error ws i = Some w -> sum (map wl (set_worker S P ws i w')) + wl w = sum (map wl ws) + wl w'.
Proof.
  intros ws i w w' E. destruct (set_worker_split S P ws i w w' E) as (a & b & -> & ->). rewrite !map_app, !sum_app. simpl. lia.
Qed.
Lemma pw_closed : forall s : st, pw (closed_push S P s) <= pw (push _ _ s) + 2.
Proof. intro s. unfold closed_push. destruct (alive S P s); [rewrite pw_app; unfold pw; simpl; lia|lia]. Qed.

(** What a step does to the measure and to the queue. *)
Lemma step_sec : forall a s s', INV s -> stepb a s = Some s' ->
  (sec s' < sec s /\ length (queue (q_pq _ _ s')) + length (seen (q_pq _ _ s)) <= length (queue (q_pq _ _ s)) + length (seen (q_pq _ _ s')) /\
   length (seen (q_pq _ _ s)) <= length (seen (q_pq _ _ s')))
  \/ (q_status _ _ s = QRun /\ length (queue (q_pq _ _ s)) = Datatypes.S (length (queue (q_pq _ _ s'))) /\ seen (q_pq _ _ s') = seen (q_pq _ _ s)).
Proof.
  intros a s s' V E.
  assert (Fp := v_push _ _ _ _ _ _ _ _ _ _ _ V). assert (Lo := v_local _ _ _ _ _ _ _ _ _ _ _ V). assert (Vq := v_q _ _ _ _ _ _ _ _ _ _ _ V).
  destruct a; simpl in E.
  - left. unfold q_recv in E. destruct (q_status _ _ s) eqn:Eq; try discriminate. destruct (push _ _ s) as [|[|w b] rest] eqn:Ep; try discriminate.
    + injection E as <-. unfold sec. simpl. rewrite Ep, app_length. change (pw ([] :: rest)) with (2 + pw rest). simpl. lia.
    + inversion Fp as [|? ? Fb Fr]; subst.
      destruct (enqueue_ok S P D ltb SW hash rw add_delta s0 c0 (w :: b) (q_pq _ _ s) (q_min _ _ s) (log _ _ s) (handed _ _ s) (best_cost _ _ s) Vq Fb
        (v_log _ _ _ _ _ _ _ _ _ _ _ V) (v_cov_min _ _ _ _ _ _ _ _ _ _ _ V)) as (q' & mn' & lg' & E' & Q' & F' & C' & Cw' & L' & M' & K' & K'').
      rewrite E', Lo, (update_none S P ltb SW q') in E by (destruct Q' as ((acc & I & _) & _); eauto).
      injection E as <-. unfold sec. simpl. rewrite Ep, !app_length. change (pw ((w :: b) :: rest)) with (2 + length (w :: b) + pw rest).
      unfold BadgerModel.work, entry in *. simpl in *. lia.
  - right. unfold q_give in E. destruct (q_status _ _ s) eqn:Eq; try discriminate. split; [reflexivity|].
    destruct (nth_error (workers _ _ s) i) as [w|] eqn:Ew; [|discriminate]. destruct w; try discriminate.
    destruct (is_empty S P (q_pq _ _ s)) eqn:Em; [discriminate|].
    destruct (pq_pop ltb (q_pq _ _ s)) as [q1 r] eqn:Ep.
    destruct r as [e|].
    2:{ exfalso. destruct Vq as ((acc & I & Fa) & _). destruct (pop_ok SW I) as (q' & r & E' & _ & _ & _ & _ & Hn). rewrite Ep in E'. injection E' as <- <-. destruct (Hn eq_refl) as [K _].
        unfold is_empty in Em. rewrite K in Em. discriminate. }
    destruct (pop_ents _ _ _ _ SW _ _ _ _ _ _ _ _ _ Vq Ep) as (Oe & Q' & Ms & Lq & Sn).
    rewrite Lo, update_none in E by (try assumption; destruct Q' as ((acc' & I' & _) & _); eauto).
    injection E as <-. simpl. auto.
  - left. unfold w_rewrite in E. destruct (nth_error (workers _ _ s) i) as [w|] eqn:Ew; [|discriminate]. destruct w; try discriminate. injection E as <-.
    unfold sec. simpl. pose proof (wl_set _ _ _ (WReady S P (new_circs S P D ltb hash rw add_delta w (shared_max _ _ s))) Ew) as X. simpl in X.
    pose proof (new_circs_length S P D ltb hash rw add_delta w (shared_max _ _ s)). lia.
  - left. unfold w_send in E. destruct (nth_error (workers _ _ s) i) as [w|] eqn:Ew; [|discriminate]. destruct w as [| |b|]; try discriminate.
    destruct b as [|x b]; [|destruct (alive S P s)]; injection E as <-; unfold sec; simpl.
    + pose proof (wl_set _ _ _ (WIdle S P) Ew) as X. simpl in X. lia.
    + pose proof (wl_set _ _ _ (WIdle S P) Ew) as X. simpl in X. rewrite pw_app. unfold pw at 2. simpl. unfold BadgerModel.work, entry in *. lia.
    + pose proof (wl_set _ _ _ (WDone S P) Ew) as X. simpl in X. lia.
  - left. unfold w_stop in E. destruct (nth_error (workers _ _ s) i) as [w|] eqn:Ew; [|discriminate]. destruct w; try discriminate.
    destruct (alive S P s); [discriminate|]. injection E as <-. unfold sec. simpl. pose proof (wl_set _ _ _ (WDone S P) Ew) as X. simpl in X. lia.
  - left. unfold m_log in E. pose proof (pw_closed s) as Pc.
    destruct (main _ _ s) eqn:Em; try discriminate; destruct (log _ _ s) as [|[b c|p sn k] rest] eqn:El; try discriminate;
      repeat match type of E with (if ?b then _ else _) = _ => destruct b end; injection E as <-; unfold sec; simpl; rewrite El, Em; simpl; lia.
  - left. unfold m_disconnect in E. unfold closed_push in E. 
    destruct (main _ _ s) eqn:Em; try discriminate; destruct (log _ _ s) as [|m rest] eqn:El; try discriminate;
      destruct (alive S P s) eqn:Ea; try discriminate; injection E as <-; unfold sec; simpl; rewrite El, Em; simpl; lia.
  - left. unfold m_timeout in E. pose proof (pw_closed s) as Pc. destruct (main _ _ s) eqn:Em; try discriminate. destruct (timeouts o); [|discriminate]. injection E as <-.
    unfold sec; simpl. rewrite Em. simpl. lia.
  - left. unfold m_join in E. destruct (main _ _ s) eqn:Em; try discriminate. destruct (forallb _ (workers _ _ s)); [|discriminate]. injection E as <-.
    unfold sec; simpl. rewrite Em. simpl. lia.
Qed.

Lemma step_done : forall a s s', stepb a s = Some s' -> q_status _ _ s <> QRun -> q_status _ _ s' <> QRun.
Proof.
  intros a s s' E N. destruct a; simpl in E.
  - unfold q_recv in E. destruct (q_status _ _ s); try discriminate; congruence.
  - unfold q_give in E. destruct (q_status _ _ s); try discriminate; congruence.
  - unfold w_rewrite in E. destruct (nth_error (workers _ _ s) i) as [[]|]; try discriminate. injection E as <-. assumption.
  - unfold w_send in E. destruct (nth_error (workers _ _ s) i) as [[| |[|]|]|]; try discriminate; [|destruct (alive S P s)]; injection E as <-; assumption.
  - unfold w_stop in E. destruct (nth_error (workers _ _ s) i) as [[]|]; try discriminate. destruct (alive S P s); [discriminate|]. injection E as <-. assumption.
  - unfold m_log in E. destruct (main _ _ s); try discriminate; destruct (log _ _ s) as [|[|] ?]; try discriminate;
      repeat match type of E with (if ?b then _ else _) = _ => destruct b end; injection E as <-; assumption.
  - unfold m_disconnect in E. destruct (main _ _ s); try discriminate; destruct (log _ _ s); try discriminate; destruct (alive S P s); try discriminate; injection E as <-; assumption.
  - unfold m_timeout in E. destruct (main _ _ s); try discriminate. destruct (timeouts o); [|discriminate]. injection E as <-; assumption.
  - unfold m_join in E. destruct (main _ _ s); try discriminate. destruct (forallb _ (workers _ _ s)); [|discriminate]. injection E as <-; assumption.
Qed.

Lemma exec_done : forall ls s s', exec stepb ls s = Some s' -> q_status _ _ s <> QRun -> q_status _ _ s' <> QRun.
Proof.
  induction ls as [|b ls IHl]; intros s s' E N; cbn [exec] in E; [injection E as <-; assumption|].
  destruct (stepb b s) as [s2|] eqn:E2; [|discriminate]. eapply IHl; [exact E|eapply step_done; eassumption].
Qed.

(** Once the queue thread has ended, every execution is finite. *)
Theorem closed_terminating : forall s, INV s -> q_status _ _ s <> QRun -> terminating stepb s.
Proof.
  enough (G : forall n s, sec s < n -> INV s -> q_status _ _ s <> QRun -> terminating stepb s) by (intros s V N; apply (G (Datatypes.S (sec s))); auto).
  induction n as [|n IH]; intros s L V N; [lia|]. constructor. intros s' [a E].
  destruct (step_sec a s s' V E) as [(K & _)|(K & _)]; [|congruence].
  apply IH; [lia| |eapply step_done; eassumption]. eapply step_INV; eassumption.
Qed.

(** ** Finitely many circuits *)
Section Finite.
Variable U : list nat.
Hypothesis HU : forall s c h, derived rw add_delta s0 c0 s c -> hash s = Some h -> In h U.
Lemma seen_U : forall s, INV s -> length (seen (q_pq _ _ s)) <= length U.
Proof.
  intros s V. destruct (v_q _ _ _ _ _ _ _ _ _ _ _ V) as ((acc & I & Fa) & Nd & _). apply NoDup_incl_length; [assumption|].
  intros h Hh. apply (i_seen I), in_map_iff in Hh. destruct Hh as (e & <- & He). rewrite Forall_forall in Fa. destruct (Fa e He) as [Hd He']. eapply HU; eassumption.
Qed.
Lemma queue_seen : forall q acc, inv (S:=S) ltb q acc -> incl (map fst (queue q)) (seen q).
Proof.
  intros q acc I h Hh. apply in_map_iff in Hh. destruct Hh as ([h' c] & <- & Hx). apply (i_seen I). destruct (i_has I h' c Hx) as (v & _ & Ha).
  apply in_map_iff. exists (h', c, v). split; [reflexivity|assumption].
Qed.
Definition prim (s : st) : nat := length U - length (seen (q_pq _ _ s)) + length (queue (q_pq _ _ s)).
Theorem finite_terminating : forall s, INV s -> terminating stepb s.
Proof.
  enough (G : forall n m s, prim s < n -> sec s < m -> INV s -> terminating stepb s) by (intros s V; apply (G (Datatypes.S (prim s)) (Datatypes.S (sec s))); auto).
  induction n as [|n IHn]; [intros; lia|]. induction m as [|m IHm]; intros s L1 L2 V; [lia|]. constructor. intros s' [a E].
  assert (V' : INV s') by (eapply step_INV; eassumption).
  pose proof (seen_U s V) as B. pose proof (seen_U s' V') as B'.
  destruct (step_sec a s s' V E) as [(K & K1 & K2)|(K & K1 & K2)].
  - apply IHm; [unfold prim in *; lia|lia|assumption].
  - apply (IHn (Datatypes.S (sec s'))); [unfold prim in *; rewrite K2 in *; lia|lia|assumption].
Qed.
End Finite.

(** ** States without successors *)
Theorem stuck_cases : forall s, INV s -> stuck stepb s ->
  main _ _ s = MDone \/
  (timeouts o = false /\ main _ _ s = MLoop /\ q_status _ _ s = QRun /\ push _ _ s = [] /\ log _ _ s = [] /\
   (forall w, In w (workers _ _ s) -> w = WIdle _ _ \/ w = WDone _ _) /\ (In (WIdle _ _) (workers _ _ s) -> queue (q_pq _ _ s) = [])).
Proof.
  intros s V K.
  assert (Hw : forall w, In w (workers _ _ s) -> w = WIdle _ _ \/ w = WDone _ _).
  { intros w Hw. apply In_nth_error in Hw. destruct Hw as [i Ei]. destruct w as [|w|b|]; auto; exfalso.
    - specialize (K (WRewrite i)). simpl in K. unfold w_rewrite in K. rewrite Ei in K. discriminate.
    - specialize (K (WSend i)). simpl in K. unfold w_send in K. rewrite Ei in K. destruct b; [discriminate|]. destruct (alive S P s); discriminate. }
  destruct (q_status _ _ s) eqn:Eq.
  - right.
    assert (Ep : push _ _ s = []).
    { specialize (K QRecv). simpl in K. unfold q_recv in K. rewrite Eq in K. destruct (push _ _ s) as [|b r]; [reflexivity|]. exfalso.
      destruct b; [discriminate|]. destruct (enqueue _ _ _ _ _ _ _) as [[[q mn] lg]|]; [|discriminate]. destruct (update_max_cost _ _ _ _ _ _) as [[? ?]|]; discriminate. }
    assert (Em : main _ _ s = MLoop).
    { destruct (main _ _ s) eqn:Em; [reflexivity|..]; exfalso; assert (X : In [] (push _ _ s)) by (apply (v_close _ _ _ _ _ _ _ _ _ _ _ V); congruence); rewrite Ep in X; destruct X. }
    assert (El : log _ _ s = []).
    { pose proof (K MLog) as K'. simpl in K'. unfold m_log in K'. rewrite Em in K'. destruct (log _ _ s) as [|[|] ?]; [reflexivity|..]; exfalso;
      match type of K' with (if ?b then _ else _) = _ => destruct b end; discriminate. }
    split; [|split; [|split; [|split; [|split; [|split]]]]]; auto.
    + specialize (K MTimeout). simpl in K. unfold m_timeout in K. rewrite Em in K. destruct (timeouts o); [discriminate|reflexivity].
    + intro Hi. apply In_nth_error in Hi. destruct Hi as [i Ei]. specialize (K (QGive i)). simpl in K. unfold q_give in K. rewrite Eq, Ei in K.
      unfold is_empty in K. destruct (queue (q_pq _ _ s)) eqn:Qe; [reflexivity|]. exfalso.
      destruct (pq_pop ltb (q_pq _ _ s)) as [q' [e|]]; [|discriminate]. destruct (update_max_cost _ _ _ _ _ _) as [[? ?]|]; discriminate.
  - left.
    assert (Al : alive S P s = false) by (unfold alive; rewrite Eq; reflexivity).
    assert (Fd : Forall (fun w => w = WDone S P) (workers _ _ s)).
    { apply Forall_forall. intros w Hx. destruct (Hw w Hx) as [->| ->]; [|reflexivity]. exfalso. apply In_nth_error in Hx. destruct Hx as [i Ei].
      specialize (K (WStop i)). simpl in K. unfold w_stop in K. rewrite Ei, Al in K. discriminate. }
    destruct (main _ _ s) eqn:Em; [..|reflexivity]; exfalso.
    + pose proof (K MLog) as K1. pose proof (K MDisconnect) as K2. simpl in K1, K2. unfold m_log in K1. unfold m_disconnect in K2. rewrite Em, Al in *.
      destruct (log _ _ s) as [|[|] ?]; [discriminate|..]; match type of K1 with (if ?b then _ else _) = _ => destruct b end; discriminate.
    + pose proof (K MLog) as K1. pose proof (K MDisconnect) as K2. simpl in K1, K2. unfold m_log in K1. unfold m_disconnect in K2. rewrite Em, Al in *.
      destruct (log _ _ s) as [|[|] ?]; [discriminate|destruct (ltb _ _); discriminate|discriminate].
    + specialize (K MJoined). simpl in K. unfold m_join in K. rewrite Em in K.
      destruct (forallb _ (workers _ _ s)) eqn:Ef; [discriminate|]. assert (X : forallb (fun w => match w with WDone _ _ => true | _ => false end) (workers _ _ s) = true); [|congruence].
      apply forallb_forall. intros w Hx. rewrite Forall_forall in Fd. rewrite (Fd w Hx). reflexivity.
  - exfalso. apply (v_nopanic _ _ _ _ _ _ _ _ _ _ _ V). assumption.
Qed.

(** From a state in which all executions are finite, one of them is maximal. *)
Definition some_step (s : st) : {a & {s' | stepb a s = Some s'}} + {stuck stepb s}.
Proof.
  assert (D1 : forall a, {s' | stepb a s = Some s'} + {stepb a s = None}).
  { intro a. destruct (stepb a s) as [s'|]; [left; exists s'; reflexivity|right; reflexivity]. }
  assert (D2 : forall f : nat -> action, (forall i, length (workers _ _ s) <= i -> stepb (f i) s = None) -> {a & {s' | stepb a s = Some s'}} + {forall i, stepb (f i) s = None}).
  { intros f Hf. enough (G : forall n, {a & {s' | stepb a s = Some s'}} + {forall i, i < n -> stepb (f i) s = None}).
    - destruct (G (length (workers _ _ s))) as [X|X]; [left; exact X|right]. intro i. destruct (le_lt_dec (length (workers _ _ s)) i); [apply Hf; assumption|apply X; assumption].
    - induction n as [|n IH]; [right; intros i Hi; lia|]. destruct IH as [X|X]; [left; exact X|].
      destruct (D1 (f n)) as [Y|Y]; [left; exists (f n); exact Y|right]. intros i Hi. destruct (Nat.eq_dec i n) as [->|Ni]; [exact Y|apply X; lia]. }
  assert (N : forall i, length (workers _ _ s) <= i -> nth_error (workers _ _ s) i = None) by (intros i Hi; apply nth_error_None; exact Hi).
  destruct (D1 QRecv) as [X1|X1]; [left; exists QRecv; exact X1|].
  destruct (D1 MLog) as [X2|X2]; [left; exists MLog; exact X2|].
  destruct (D1 MDisconnect) as [X3|X3]; [left; exists MDisconnect; exact X3|].
  destruct (D1 MTimeout) as [X4|X4]; [left; exists MTimeout; exact X4|].
  destruct (D1 MJoined) as [X5|X5]; [left; exists MJoined; exact X5|].
  destruct (D2 QGive) as [X6|X6]; [intros i Hi; simpl; unfold q_give; rewrite (N i Hi); destruct (q_status _ _ s); reflexivity|left; exact X6|].
  destruct (D2 WRewrite) as [X7|X7]; [intros i Hi; simpl; unfold w_rewrite; rewrite (N i Hi); reflexivity|left; exact X7|].
  destruct (D2 WSend) as [X8|X8]; [intros i Hi; simpl; unfold w_send; rewrite (N i Hi); reflexivity|left; exact X8|].
  destruct (D2 WStop) as [X9|X9]; [intros i Hi; simpl; unfold w_stop; rewrite (N i Hi); reflexivity|left; exact X9|].
  right. intros []; auto.
Defined.
Lemma maximal : forall s, terminating stepb s -> exists ls s', exec stepb ls s = Some s' /\ stuck stepb s'.
Proof.
  intros s H. induction H as [s _ IH]. destruct (some_step s) as [(a & s' & E)|K].
  - destruct (IH s') as (ls & s2 & E2 & K2); [exists a; exact E|]. exists (a :: ls), s2. simpl. rewrite E. auto.
  - exists [], s. auto.
Qed.
Lemma exec_app : forall ls1 ls2 s, exec stepb (ls1 ++ ls2) s = match exec stepb ls1 s with Some s' => exec stepb ls2 s' | None => None end.
Proof. induction ls1 as [|a ls1 IH]; intros ls2 s; simpl; [reflexivity|]. destruct (stepb a s); auto. Qed.
Lemma exec_INV : forall ls s s', INV s -> exec stepb ls s = Some s' -> INV s'.
Proof.
  induction ls as [|l ls IH]; intros s s' V E; simpl in E; [injection E as <-; assumption|].
  destruct (stepb l s) as [s1|] eqn:Es; [|discriminate]. eapply IH; [eapply step_INV; eassumption|exact E].
Qed.

(** Reading all the pushed batches up to the closing one ends the queue thread. *)
Lemma drain_push : forall n s, INV s -> length (push _ _ s) <= n -> In [] (push _ _ s) ->
  exists ls s', exec stepb ls s = Some s' /\ q_status _ _ s' <> QRun.
Proof.
  induction n as [|n IH]; intros s V L Hi; [destruct (push _ _ s); [destruct Hi|simpl in L; lia]|].
  destruct (q_status _ _ s) eqn:Eq; [|exists [], s; split; [reflexivity|congruence]..].
  destruct (push _ _ s) as [|b rest] eqn:Ep; [destruct Hi|].
  destruct (stepb QRecv s) as [s1|] eqn:E.
  2:{ exfalso. simpl in E. unfold q_recv in E. rewrite Eq, Ep in E. destruct b; [discriminate|].
      destruct (enqueue _ _ _ _ _ _ _) as [[[q mn] lg]|]; [|discriminate]. destruct (update_max_cost _ _ _ _ _ _) as [[? ?]|]; discriminate. }
  assert (V1 : INV s1) by (eapply step_INV; eassumption).
  destruct (q_status _ _ s1) eqn:Eq1; [|exists [QRecv], s1; cbn [exec]; rewrite E; split; [reflexivity|congruence]..].
  assert (P1 : push _ _ s1 = rest /\ b <> []).
  { simpl in E. unfold q_recv in E. rewrite Eq, Ep in E. destruct b; [injection E as <-; discriminate|].
    destruct (enqueue _ _ _ _ _ _ _) as [[[q mn] lg]|]; [|injection E as <-; discriminate]. destruct (update_max_cost _ _ _ _ _ _) as [[? ?]|]; injection E as <-; [|discriminate].
    split; [reflexivity|discriminate]. }
  destruct P1 as [P1 Nb]. destruct (IH s1 V1) as (ls & s2 & E2 & N2); [rewrite P1; simpl in L; lia|rewrite P1; destruct Hi; [congruence|assumption]|].
  exists (QRecv :: ls), s2. cbn [exec]. rewrite E. auto.
Qed.
Theorem can_return : forall s, INV s -> timeouts o = true -> exists ls s', exec stepb ls s = Some s' /\ main _ _ s' = MDone.
Proof.
  intros s V To.
  assert (G : forall s, INV s -> q_status _ _ s <> QRun -> exists ls s', exec stepb ls s = Some s' /\ main _ _ s' = MDone).
  { intros s1 V1 N1. destruct (maximal s1 (closed_terminating s1 V1 N1)) as (ls & s2 & E2 & K2). exists ls, s2. split; [assumption|].
    destruct (stuck_cases s2 (exec_INV _ _ _ V1 E2) K2) as [X|(X & _)]; [assumption|congruence]. }
  assert (G2 : forall s, INV s -> In [] (push _ _ s) -> exists ls s', exec stepb ls s = Some s' /\ main _ _ s' = MDone).
  { intros s1 V1 H1. destruct (drain_push _ s1 V1 (le_n _) H1) as (ls & s2 & E2 & N2). destruct (G s2 (exec_INV _ _ _ V1 E2) N2) as (ls' & s3 & E3 & M3).
    exists (ls ++ ls'), s3. rewrite exec_app, E2. auto. }
  destruct (q_status _ _ s) eqn:Eq; [|apply G; [assumption|congruence]..].
  destruct (main _ _ s) eqn:Em; [|apply G2; [assumption|apply (v_close _ _ _ _ _ _ _ _ _ _ _ V); congruence]..].
  assert (E : stepb MTimeout s = Some (set_m S P s MDrain (best _ _ s) (best_cost _ _ s) (log _ _ s) (closed_push S P s))).
  { simpl. unfold m_timeout. rewrite Em, To. reflexivity. }
  assert (V1 : INV (set_m S P s MDrain (best _ _ s) (best_cost _ _ s) (log _ _ s) (closed_push S P s))) by (eapply step_INV; eassumption).
  destruct (G2 _ V1) as (ls & s2 & E2 & M2); [simpl; apply closed_push_in; assumption|].
  exists (MTimeout :: ls), s2. cbn [exec]. rewrite E. auto.
Qed.

(** ** Without timeouts and limit, the main loop is never left *)
Record loops (s : st) : Prop := {
  l_main : main _ _ s = MLoop;
  l_run : q_status _ _ s = QRun;
  l_push : ~ In [] (push _ _ s)
}.
Theorem loops_forever : timeouts o = false -> max_circuit_count o = None -> forall ls s, exec stepb ls start = Some s -> loops s.
Proof.
  intros To Mc.
  enough (G : forall ls s s', INV s -> loops s -> exec stepb ls s = Some s' -> loops s').
  { intros ls s E. refine (G ls start s _ _ E); [apply init_INV; assumption|]. constructor; simpl; auto. intros [K|[]]; discriminate. }
  induction ls as [|a ls IH]; intros s s' V [Lm Lr Lp] E; cbn [exec] in E; [injection E as <-; constructor; assumption|].
  destruct (stepb a s) as [s1|] eqn:Es; [|discriminate].
  assert (V1 : INV s1) by (eapply step_INV; eassumption).
  refine (IH s1 s' V1 _ E). clear IH E s'. pose proof (v_nopanic _ _ _ _ _ _ _ _ _ _ _ V1) as Np.
  destruct a; simpl in Es.
  - unfold q_recv in Es. rewrite Lr in Es. destruct (push _ _ s) as [|b rest] eqn:Ep; [discriminate|]. destruct b as [|w b]; [exfalso; apply Lp; left; reflexivity|].
    destruct (enqueue _ _ _ _ _ _ _) as [[[q mn] lg]|]; [|injection Es as <-; exfalso; apply Np; reflexivity].
    destruct (update_max_cost _ _ _ _ _ _) as [[? ?]|]; injection Es as <-; [|exfalso; apply Np; reflexivity].
    constructor; simpl; auto. intro K. apply Lp. right. assumption.
  - unfold q_give in Es. rewrite Lr in Es. destruct (nth_error (workers _ _ s) i) as [[]|]; try discriminate. destruct (is_empty _ _ _); [discriminate|].
    destruct (pq_pop _ _) as [q [e|]]; [|injection Es as <-; exfalso; apply Np; reflexivity].
    destruct (update_max_cost _ _ _ _ _ _) as [[? ?]|]; injection Es as <-; [|exfalso; apply Np; reflexivity]. constructor; simpl; auto.
  - unfold w_rewrite in Es. destruct (nth_error (workers _ _ s) i) as [[]|]; try discriminate. injection Es as <-. constructor; simpl; auto.
  - unfold w_send in Es. destruct (nth_error (workers _ _ s) i) as [[| |[|]|]|]; try discriminate; [|destruct (alive S P s)]; injection Es as <-; constructor; simpl; auto.
    intro K. apply in_app_or in K. destruct K as [K|[K|[]]]; [apply Lp; assumption|discriminate].
  - unfold w_stop in Es. destruct (nth_error (workers _ _ s) i) as [[]|]; try discriminate. unfold alive in Es. rewrite Lr in Es. discriminate.
  - unfold m_log in Es. rewrite Lm, Mc in Es. destruct (log _ _ s) as [|[b c|] ?]; try discriminate; [destruct (ltb c (best_cost _ _ s))|]; injection Es as <-; constructor; simpl; auto.
  - unfold m_disconnect in Es. rewrite Lm in Es. destruct (log _ _ s); [|discriminate]. unfold alive in Es. rewrite Lr in Es. discriminate.
  - unfold m_timeout in Es. rewrite Lm, To in Es. discriminate.
  - unfold m_join in Es. rewrite Lm in Es. discriminate.
Qed.

(** ** Completeness *)
Section Complete.
Variable U : list nat.
Hypothesis HU : forall s c h, derived rw add_delta s0 c0 s c -> hash s = Some h -> In h U.
Hypothesis big : length U < queue_size o.
Definition acct (s : st) (h : nat) : Prop :=
  In h (seen (q_pq _ _ s)) \/ (exists b w, In b (push _ _ s) /\ In w b /\ ehash w = h) \/
  (exists b w, In (WReady _ _ b) (workers _ _ s) /\ In w b /\ ehash w = h).
Record EXH (s : st) : Prop := {
  x_handed : forall w, In w (handed _ _ s) -> In (WBusy _ _ w) (workers _ _ s) \/
    forall s' d h, In (s', d) (rw (estate w)) -> hash s' = Some h -> acct s h;
  x_seen : forall h, In h (seen (q_pq _ _ s)) -> In h (map fst (queue (q_pq _ _ s))) \/ In h (map ehash (handed _ _ s));
  x_start : acct s h0;
  x_enq : incl (seen (q_pq _ _ s)) (map ehash (enqueued _ _ s))
}.
Lemma keys_ents : forall (q : pq S P) acc, inv ltb q acc -> map ehash (ents q) = map fst (queue q).
Proof. intros q acc I. rewrite <- (ents_queue I). rewrite map_map. reflexivity. Qed.
Lemma enqueue_all : forall b q mn lg hd, qinv S P D ltb hash rw add_delta s0 c0 q hd -> Forall ok b -> max_size q = queue_size o ->
  forall q' mn' lg', enqueue S P ltb q mn lg b = Some (q', mn', lg') ->
  (forall w, In w b -> In (ehash w) (seen q')) /\ incl (seen q) (seen q') /\ incl (seen q') (seen q ++ map ehash b) /\
  (forall h, In h (seen q') -> ~ In h (seen q) -> In h (map fst (queue q'))) /\ incl (map fst (queue q)) (map fst (queue q')).
Proof.
  induction b as [|w b IH]; intros q mn lg hd Q Fb Ms q' mn' lg' E.
  - simpl in E. injection E as <- <- <-. repeat split; try contradiction; auto using incl_refl. rewrite app_nil_r. apply incl_refl.
  - inversion Fb as [|? ? Ow Fb']; subst.
    assert (Q1 := Q). destruct Q1 as ((acc & I & Fa) & Nd & H1 & H2 & H3).
    destruct (push_ok SW (estate w) (ehash w) (ecost w) I) as (q1 & r & Ep & Ab & I1 & Ms1 & _).
    assert (Q1 : qinv S P D ltb hash rw add_delta s0 c0 q1 hd).
    { destruct (abs_push _ _ _ _ _ _ _ _ _ _ _ _ Ab) as (A1 & A2 & A3 & A4 & A5 & A6 & A7).
      split; [|split; [|split; [|split]]].
      - exists (acc ++ accepted [Pushed r]). split; [assumption|]. apply Forall_app. split; [assumption|].
        destruct A7 as [->| ->]; simpl; constructor; [|constructor]. destruct w as [[h c] s]. exact Ow.
      - auto.
      - intros e He. apply A2, H1, He.
      - assumption.
      - intros e He. destruct (A1 e He) as [X|[-> X]]; [apply H3; assumption|]. intro Y. apply in_map_iff in Y. destruct Y as (x & Ex & Hx). apply H1 in Hx. rewrite Ex in Hx. apply X. exact Hx. }
    cbn [enqueue] in E. cbv zeta in E. rewrite Ep in E.
    destruct (IH q1 _ _ hd Q1 Fb' (eq_trans Ms1 Ms) q' mn' lg' E) as (B1 & B2 & B3 & B4 & B5).
    assert (Lt : length (ents q) < max_size q).
    { rewrite (ents_length I), Ms. eapply Nat.le_lt_trans; [|exact big]. rewrite <- (map_length fst). apply NoDup_incl_length; [apply (i_nodup I)|].
      intros h Hh. apply (queue_seen _ _ I), (i_seen I), in_map_iff in Hh. destruct Hh as (e & <- & He). rewrite Forall_forall in Fa. destruct (Fa e He) as [Hd He']. eapply HU; eassumption. }
    assert (C : In (ehash w) (seen q1) /\ incl (seen q) (seen q1) /\ incl (seen q1) (seen q ++ [ehash w]) /\
      (forall h, In h (seen q1) -> ~ In h (seen q) -> In h (map fst (queue q1))) /\ incl (map fst (queue q)) (map fst (queue q1))).
    { rewrite <- !(keys_ents _ _ I), <- !(keys_ents _ _ I1). destruct (abs_push_room _ _ _ _ _ _ _ _ _ _ _ _ Ab Lt) as [(K1 & K2 & K3)|(Hs & K2 & Pm)]; rewrite ?K1, K2.
      - repeat split; auto using incl_refl; [apply incl_appl, incl_refl|tauto].
      - assert (Hh : In (ehash w) (map ehash (ents q1))).
        { apply in_map_iff. exists (ehash w, ecost w, estate w). split; [reflexivity|]. eapply Permutation_in; [symmetry; exact Pm|left; reflexivity]. }
        split; [left; reflexivity|]. split; [intros x Hx; right; assumption|]. split; [intros x [<-|Hx]; apply in_or_app; [right; left; reflexivity|left; assumption]|].
        split; [intros x [<-|Hx] N; [assumption|tauto]|].
        intros x Hx. apply in_map_iff in Hx. destruct Hx as (e & <- & He). apply in_map. eapply Permutation_in; [symmetry; exact Pm|right; assumption]. }
    destruct C as (C1 & C2 & C3 & C4 & C5).
    split; [|split; [|split; [|split]]].
    + intros x [<-|Hx]; [apply B2; assumption|apply B1; assumption].
    + intros x Hx. apply B2, C2, Hx.
    + intros x Hx. apply B3 in Hx. apply in_app_or in Hx. destruct Hx as [Hx|Hx]; [|apply in_or_app; right; right; assumption].
      apply C3, in_app_or in Hx. apply in_or_app. destruct Hx as [Hx|[<-|[]]]; [left; assumption|right; left; reflexivity].
    + intros h Hh N. destruct (in_dec Nat.eq_dec h (seen q1)) as [Y|Y]; [apply B5, C4; assumption|apply B4; assumption].
    + intros x Hx. apply B5, C5, Hx.
Qed.

Lemma in_set_worker : forall ws i (w w' x : wstatus S P), nth_error ws i = Some w -> In x ws -> x <> w -> In x (set_worker S P ws i w').
Proof.
  intros ws i w w' x E Hx N. destruct (set_worker_split S P ws i w w' E) as (a & b & -> & ->). apply in_app_or in Hx. apply in_or_app.
  destruct Hx as [Hx|[Hx|Hx]]; [left; assumption|congruence|right; right; assumption].
Qed.
Lemma in_set_worker_new : forall ws i (w w' : wstatus S P), nth_error ws i = Some w -> In w' (set_worker S P ws i w').
Proof. intros ws i w w' E. destruct (set_worker_split S P ws i w w' E) as (a & b & -> & ->). apply in_or_app. right. left. reflexivity. Qed.

(** A step that keeps every account keeps the record, if it changes neither queue nor ghosts. *)
Lemma EXH_keep : forall s s' : st, EXH s -> q_pq _ _ s' = q_pq _ _ s -> handed _ _ s' = handed _ _ s -> enqueued _ _ s' = enqueued _ _ s ->
  (forall h, acct s h -> acct s' h) ->
  (forall w, In (WBusy _ _ w) (workers _ _ s) -> In (WBusy _ _ w) (workers _ _ s') \/ forall s1 d h, In (s1, d) (rw (estate w)) -> hash s1 = Some h -> acct s' h) -> EXH s'.
Proof.
  intros s s' X Eq Eh Ee Ha Hb. destruct X as [X1 X2 X3 X4]. constructor; rewrite ?Eq, ?Eh, ?Ee; auto.
  intros w Hw. destruct (X1 w Hw) as [K|K]; [auto|right; eauto].
Qed.

Theorem step_EXH : forall a s s', INV s -> EXH s -> q_status _ _ s = QRun -> stepb a s = Some s' -> q_status _ _ s' = QRun -> EXH s'.
Proof.
  intros a s s' V X Rn E Rn'.
  assert (Fp := v_push _ _ _ _ _ _ _ _ _ _ _ V). assert (Lo := v_local _ _ _ _ _ _ _ _ _ _ _ V). assert (Vq := v_q _ _ _ _ _ _ _ _ _ _ _ V).
  assert (Sh := v_shared _ _ _ _ _ _ _ _ _ _ _ V). assert (Ms := v_cap _ _ _ _ _ _ _ _ _ _ _ V).
  destruct a; simpl in E.
  - unfold q_recv in E. rewrite Rn in E. destruct (push _ _ s) as [|[|w b] rest] eqn:Ep; try discriminate; [injection E as <-; discriminate|].
    inversion Fp as [|? ? Fb Fr]; subst.
    destruct (enqueue S P ltb (q_pq _ _ s) (q_min _ _ s) (log _ _ s) (w :: b)) as [[[q' mn'] lg']|] eqn:En; [|injection E as <-; discriminate].
    destruct (update_max_cost _ _ _ _ _ _) as [[l1 sh1]|]; injection E as <-; [|discriminate].
    destruct (enqueue_all _ _ _ _ _ Vq Fb Ms _ _ _ En) as (B1 & B2 & B3 & B4 & B5). destruct X as [X1 X2 X3 X4].
    match goal with |- EXH ?s' => assert (Ha : forall h, acct s h -> acct s' h) end.
    { intros h [K|[(b' & w' & K1 & K2 & K3)|K]]; unfold acct; simpl.
      - left. apply B2. assumption.
      - rewrite Ep in K1. destruct K1 as [<-|K1]; [left; subst h; apply B1; assumption|right; left; exists b', w'; auto].
      - right. right. exact K. }
    constructor; simpl; auto.
    + intros w' Hw'. destruct (X1 w' Hw') as [K|K]; [left; assumption|right]. intros s1 d h K1 K2. apply Ha. eauto.
    + intros h Hh. destruct (in_dec Nat.eq_dec h (seen (q_pq _ _ s))) as [Y|Y]; [|left; auto]. destruct (X2 h Y) as [K|K]; [left; apply B5; assumption|right; assumption].
    + intros h Hh. apply B3, in_app_or in Hh. rewrite map_app. apply in_or_app. destruct Hh as [Hh|Hh]; [left; apply X4; assumption|right; assumption].
  - unfold q_give in E. rewrite Rn in E. destruct (nth_error (workers _ _ s) i) as [w|] eqn:Ew; [|discriminate]. destruct w; try discriminate.
    destruct (is_empty S P (q_pq _ _ s)) eqn:Em; [discriminate|].
    destruct (pq_pop ltb (q_pq _ _ s)) as [q1 [e|]] eqn:Ep; [|injection E as <-; discriminate].
    destruct (update_max_cost _ _ _ _ _ _) as [[l1 sh1]|]; injection E as <-; [|discriminate].
    assert (Vq' := Vq). destruct Vq' as ((acc & I & Fa) & _).
    assert (Hk : seen q1 = seen (q_pq _ _ s) /\ incl (map fst (queue (q_pq _ _ s))) (ehash e :: map fst (queue q1))).
    { destruct (pop_by_ok SW I) as [[Hemp Ee]|(q2 & w & E1 & I1 & Hw & _ & Hperm & Hs1 & Hm1 & _ & _ & Hl1 & _)].
      - unfold pq_pop in Ep. rewrite Ee in Ep. discriminate.
      - unfold pq_pop in Ep. rewrite E1 in Ep. injection Ep as -> ->. split; [assumption|]. rewrite <- (keys_ents _ _ I), <- (keys_ents _ _ I1).
        intros x Hx. eapply Permutation_in in Hx; [|apply Permutation_map; exact Hperm]. exact Hx. }
    destruct Hk as [Hs Hi]. destruct X as [X1 X2 X3 X4].
    match goal with |- EXH ?s' => assert (Ha : forall h, acct s h -> acct s' h) end.
    { intros h [K|[K|(b' & w' & K1 & K2 & K3)]]; unfold acct; simpl.
      - left. rewrite Hs. assumption.
      - right. left. exact K.
      - right. right. exists b', w'. split; [|auto]. eapply in_set_worker; eauto; discriminate. }
    constructor; simpl; auto.
    + intros w' Hw'. apply in_app_or in Hw'. destruct Hw' as [Hw'|[<-|[]]].
      * destruct (X1 w' Hw') as [K|K]; [left; eapply in_set_worker; eauto; discriminate|right]. intros s1 d h K1 K2. apply Ha. eauto.
      * left. eapply in_set_worker_new; eassumption.
    + intros h Hh. rewrite Hs in Hh. rewrite map_app. destruct (X2 h Hh) as [K|K]; [|right; apply in_or_app; left; assumption].
      apply Hi in K. destruct K as [K|K]; [right; apply in_or_app; right; left; assumption|left; assumption].
    + rewrite Hs. assumption.
  - unfold w_rewrite in E. destruct (nth_error (workers _ _ s) i) as [w|] eqn:Ew; [|discriminate]. destruct w as [|w0| |]; try discriminate. injection E as <-.
    rewrite Sh in *. set (b0 := new_circs S P D ltb hash rw add_delta w0 None) in *.
    apply (EXH_keep s); simpl; auto.
    + intros h [K|[K|(b' & w' & K1 & K2 & K3)]]; unfold acct; simpl; [left; exact K|right; left; exact K|].
      right. right. exists b', w'. split; [|auto]. eapply in_set_worker; eauto; discriminate.
    + intros w Hw.
      assert (Hn : forall s1 d h, In (s1, d) (rw (estate w0)) -> hash s1 = Some h -> exists x, In x b0 /\ ehash x = h).
      { intros s1 d h K1 K2. exists (h, add_delta (ecost w0) d, s1). split; [|reflexivity]. unfold b0, new_circs. apply in_flat_map. exists (s1, d). split; [assumption|].
        cbn. rewrite K2. left. reflexivity. }
      assert (Eqd : In (WBusy S P w) (set_worker S P (workers _ _ s) i (WReady S P b0)) \/ w = w0).
      { destruct (set_worker_split S P _ i _ (WReady S P b0) Ew) as (x & y & E1 & ->). rewrite E1 in Hw. apply in_app_or in Hw.
        destruct Hw as [Hw|[Hw|Hw]]; [left; apply in_or_app; left; assumption|right; congruence|left; apply in_or_app; right; right; assumption]. }
      destruct Eqd as [K| ->]; [left; exact K|right]. intros s1 d h K1 K2. destruct (Hn s1 d h K1 K2) as (x & Hx & Ex). right. right. exists b0, x. split; [simpl; eapply in_set_worker_new; eassumption|auto].
  - unfold w_send in E. destruct (nth_error (workers _ _ s) i) as [w|] eqn:Ew; [|discriminate]. destruct w as [| |b|]; try discriminate.
    unfold alive in E. rewrite Rn in E.
    assert (Hs : forall h pu, acct s h -> incl (push _ _ s) pu -> (In b pu \/ b = []) -> acct (set_w S P s i (WIdle S P) pu) h).
    { intros h pu [K|[(b' & w' & K1 & K2 & K3)|(b' & w' & K1 & K2 & K3)]] Hp Hb; unfold acct; simpl; [left; exact K|right; left; exists b', w'; auto|].
      destruct (set_worker_split S P _ i _ (WIdle S P) Ew) as (x & y & E1 & E2). rewrite E2. rewrite E1 in K1. apply in_app_or in K1.
      destruct K1 as [K1|[K1|K1]].
      - right. right. exists b', w'. split; [apply in_or_app; left; assumption|auto].
      - injection K1 as <-. destruct Hb as [Hb| ->]; [right; left; exists b, w'; auto|destruct K2].
      - right. right. exists b', w'. split; [apply in_or_app; right; right; assumption|auto]. }
    destruct b as [|x b]; injection E as <-; apply (EXH_keep s); simpl; auto; try (intros h Hh; apply Hs; auto using incl_refl);
      try (intros w' Hw'; left; eapply in_set_worker; eauto; discriminate).
    + intros y Hy. apply in_or_app. left. exact Hy.
    + left. apply in_or_app. right. left. reflexivity.
  - unfold w_stop in E. destruct (nth_error (workers _ _ s) i) as [[]|]; try discriminate. unfold alive in E. rewrite Rn in E. discriminate.
  - assert (G : forall m b c lg pu, incl (push _ _ s) pu -> EXH (set_m S P s m b c lg pu)).
    { intros m b c lg pu Hp. apply (EXH_keep s); simpl; auto. intros h [K|[(b' & w' & K1 & K2)|K]]; unfold acct; simpl; [left; exact K|right; left; exists b', w'; auto|right; right; exact K]. }
    assert (Hc : incl (push _ _ s) (closed_push S P s)) by (unfold closed_push; destruct (alive S P s); [apply incl_appl|]; apply incl_refl).
    unfold m_log in E. destruct (main _ _ s); try discriminate; destruct (log _ _ s) as [|[|] ?]; try discriminate;
      repeat match type of E with (if ?b then _ else _) = _ => destruct b end; injection E as <-; apply G; auto using incl_refl.
  - unfold m_disconnect, alive in E. rewrite Rn in E. destruct (main _ _ s); try discriminate; destruct (log _ _ s); discriminate.
  - assert (Hc : incl (push _ _ s) (closed_push S P s)) by (unfold closed_push; destruct (alive S P s); [apply incl_appl|]; apply incl_refl).
    unfold m_timeout in E. destruct (main _ _ s); try discriminate. destruct (timeouts o); [|discriminate]. injection E as <-.
    apply (EXH_keep s); simpl; auto. intros h [K|[(b' & w' & K1 & K2)|K]]; unfold acct; simpl; [left; exact K|right; left; exists b', w'; auto|right; right; exact K].
  - unfold m_join in E. destruct (main _ _ s); try discriminate. destruct (forallb _ (workers _ _ s)); [|discriminate]. injection E as <-.
    apply (EXH_keep s); simpl; auto.
Qed.
Theorem reach_EXH : forall ls s, exec stepb ls start = Some s -> q_status _ _ s = QRun -> EXH s.
Proof.
  enough (G : forall ls s s', INV s -> EXH s -> q_status _ _ s = QRun -> exec stepb ls s = Some s' -> q_status _ _ s' = QRun -> EXH s').
  { intros ls s E R. refine (G ls start s _ _ eq_refl E R); [apply init_INV; assumption|]. constructor; simpl.
    - intros w [].
    - intros h [].
    - right. left. exists [(h0, c0, s0)], (h0, c0, s0). simpl. auto.
    - intros h []. }
  induction ls as [|a ls IH]; intros s s' V X R E R'; cbn [exec] in E; [injection E as <-; assumption|].
  destruct (stepb a s) as [s1|] eqn:Es; [|discriminate].
  assert (V1 : INV s1) by (eapply step_INV; eassumption).
  assert (R1 : q_status _ _ s1 = QRun).
  { destruct (q_status _ _ s1) eqn:Q1; [reflexivity|..]; exfalso; eapply exec_done; try exact E; congruence. }
  exact (IH s1 s' V1 (step_EXH a s s1 V X R Es R1) R1 E R').
Qed.

Hypothesis hash_inj : forall s c s' c' h, derived rw add_delta s0 c0 s c -> derived rw add_delta s0 c0 s' c' -> hash s = Some h -> hash s' = Some h -> s = s'.
Theorem exhausted_complete : forall ls s, exec stepb ls start = Some s ->
  q_status _ _ s = QRun -> push _ _ s = [] -> queue (q_pq _ _ s) = [] -> Forall (fun w => w = WIdle S P) (workers _ _ s) ->
  forall x, derived_valid rw (fun y => hash y <> None) s0 x -> exists w, In w (enqueued _ _ s) /\ estate w = x /\ ok w.
Proof.
  intros ls s E R Ep Eq Fw.
  assert (V : INV s) by (eapply reach_INV; eassumption). assert (X : EXH s) by (eapply reach_EXH; eassumption). destruct X as [X1 X2 X3 X4].
  assert (A : forall h, acct s h -> In h (map ehash (handed _ _ s))).
  { intros h [K|[(b & w & K & _)|(b & w & K & _)]].
    - destruct (X2 h K) as [Y|Y]; [rewrite Eq in Y; destruct Y|assumption].
    - rewrite Ep in K. destruct K.
    - rewrite Forall_forall in Fw. specialize (Fw _ K). discriminate. }
  assert (B : forall h x c, In h (map ehash (handed _ _ s)) -> derived rw add_delta s0 c0 x c -> hash x = Some h -> exists w, In w (handed _ _ s) /\ estate w = x /\ ok w).
  { intros h x c Hh Dx Hx. apply in_map_iff in Hh. destruct Hh as (w & <- & Hw). pose proof (v_handed _ _ _ _ _ _ _ _ _ _ _ V) as Fh. rewrite Forall_forall in Fh. destruct (Fh w Hw) as [Dw Hw'].
    exists w. split; [assumption|]. split; [|split; assumption]. eapply hash_inj; eassumption. }
  assert (C : forall x, derived_valid rw (fun y => hash y <> None) s0 x -> exists w, In w (handed _ _ s) /\ estate w = x /\ ok w).
  { intros x Hx. induction Hx as [|x x' d Hx IH Hr Hv].
    - eapply B; [apply A, X3|apply derived_refl|assumption].
    - destruct IH as (w & Hw & <- & [Dw Hh]). destruct (hash x') as [h|] eqn:Eh; [|congruence].
      destruct (X1 w Hw) as [K|K]; [rewrite Forall_forall in Fw; specialize (Fw _ K); discriminate|].
      eapply B; [apply A; eapply K; eassumption|eapply derived_step; eassumption|assumption]. }
  intros x Hx. destruct (C x Hx) as (w & Hw & <- & [Dw Hh]).
  assert (Sn : In (ehash w) (seen (q_pq _ _ s))).
  { destruct (v_q _ _ _ _ _ _ _ _ _ _ _ V) as (_ & _ & K & _). apply K. assumption. }
  apply X4, in_map_iff in Sn. destruct Sn as (w' & E' & Hw'). pose proof (v_enq _ _ _ _ _ _ _ _ _ _ _ V) as Fe. rewrite Forall_forall in Fe. destruct (Fe w' Hw') as [Dw' Hh'].
  exists w'. split; [assumption|]. split; [|split; assumption]. eapply hash_inj; try eassumption. congruence.
Qed.
End Complete.

(** No worker ends before the queue thread does. *)
Lemma alive_workers : forall ls s, exec stepb ls start = Some s -> q_status _ _ s = QRun -> ~ In (WDone S P) (workers _ _ s).
Proof.
  assert (Hset : forall ws i (w w' : wstatus S P), nth_error ws i = Some w -> w' <> WDone S P -> ~ In (WDone S P) ws -> ~ In (WDone S P) (set_worker S P ws i w')).
  { intros ws i w w' E N H. destruct (set_worker_split S P ws i w w' E) as (a & b & -> & ->). intro K. apply H. apply in_app_or in K. apply in_or_app.
    destruct K as [K|[K|K]]; [left; assumption|congruence|right; right; assumption]. }
  enough (G : forall ls s s', ~ In (WDone S P) (workers _ _ s) -> exec stepb ls s = Some s' -> q_status _ _ s' = QRun -> ~ In (WDone S P) (workers _ _ s')).
  { intros ls s E R. refine (G ls start s _ E R). simpl. intro K. apply repeat_spec in K. discriminate. }
  induction ls as [|a ls IH]; intros s s' N E R; cbn [exec] in E; [injection E as <-; assumption|].
  destruct (stepb a s) as [s1|] eqn:Es; [|discriminate].
  assert (R1 : q_status _ _ s1 = QRun).
  { destruct (q_status _ _ s1) eqn:Q1; [reflexivity|..]; exfalso; eapply exec_done; try exact E; congruence. }
  assert (R0 : q_status _ _ s = QRun).
  { destruct (q_status _ _ s) eqn:Q1; [reflexivity|..]; exfalso; eapply step_done; try exact Es; congruence. }
  refine (IH s1 s' _ E R). clear IH E R.
  destruct a; simpl in Es.
  - unfold q_recv in Es. rewrite R0 in Es. destruct (push _ _ s) as [|[|? ?] ?]; try discriminate; [injection Es as <-; assumption|].
    destruct (enqueue _ _ _ _ _ _ _) as [[[q mn] lg]|]; [|injection Es as <-; assumption].
    destruct (update_max_cost _ _ _ _ _ _) as [[? ?]|]; injection Es as <-; assumption.
  - unfold q_give in Es. rewrite R0 in Es. destruct (nth_error (workers _ _ s) i) as [[]|] eqn:Ew; try discriminate.
    destruct (is_empty _ _ _); [discriminate|]. destruct (pq_pop _ _) as [q [e|]]; [|injection Es as <-; assumption].
    destruct (update_max_cost _ _ _ _ _ _) as [[? ?]|]; injection Es as <-; simpl; [|assumption]. eapply Hset; eauto; discriminate.
  - unfold w_rewrite in Es. destruct (nth_error (workers _ _ s) i) as [[]|] eqn:Ew; try discriminate. injection Es as <-. simpl. eapply Hset; eauto; discriminate.
  - unfold w_send, alive in Es. rewrite R0 in Es. destruct (nth_error (workers _ _ s) i) as [[| |[|]|]|] eqn:Ew; try discriminate; injection Es as <-; simpl; eapply Hset; eauto; discriminate.
  - unfold w_stop, alive in Es. rewrite R0 in Es. destruct (nth_error (workers _ _ s) i) as [[]|]; discriminate.
  - unfold m_log in Es. destruct (main _ _ s); try discriminate; destruct (log _ _ s) as [|[|] ?]; try discriminate;
      repeat match type of Es with (if ?b then _ else _) = _ => destruct b end; injection Es as <-; assumption.
  - unfold m_disconnect in Es. destruct (main _ _ s); try discriminate; destruct (log _ _ s); try discriminate; destruct (alive S P s); try discriminate; injection Es as <-; assumption.
  - unfold m_timeout in Es. destruct (main _ _ s); try discriminate. destruct (timeouts o); [|discriminate]. injection Es as <-; assumption.
  - unfold m_join in Es. destruct (main _ _ s); try discriminate. destruct (forallb _ (workers _ _ s)); [|discriminate]. injection Es as <-; assumption.
Qed.

(** What was enqueued stays. *)
Lemma step_enqueued : forall a s s', stepb a s = Some s' -> incl (enqueued _ _ s) (enqueued _ _ s').
Proof.
  intros a s s' E. destruct a; simpl in E.
  - unfold q_recv in E. destruct (q_status _ _ s); try discriminate. destruct (push _ _ s) as [|[|? ?] ?]; try discriminate; [injection E as <-; apply incl_refl|].
    destruct (enqueue _ _ _ _ _ _ _) as [[[q mn] lg]|]; [|injection E as <-; apply incl_refl].
    destruct (update_max_cost _ _ _ _ _ _) as [[? ?]|]; injection E as <-; [apply incl_appl|]; apply incl_refl.
  - unfold q_give in E. destruct (q_status _ _ s); try discriminate. destruct (nth_error (workers _ _ s) i) as [[]|]; try discriminate.
    destruct (is_empty _ _ _); [discriminate|]. destruct (pq_pop _ _) as [q [e|]]; [|injection E as <-; apply incl_refl].
    destruct (update_max_cost _ _ _ _ _ _) as [[? ?]|]; injection E as <-; apply incl_refl.
  - unfold w_rewrite in E. destruct (nth_error (workers _ _ s) i) as [[]|]; try discriminate. injection E as <-. apply incl_refl.
  - unfold w_send in E. destruct (nth_error (workers _ _ s) i) as [[| |[|]|]|]; try discriminate; [|destruct (alive S P s)]; injection E as <-; apply incl_refl.
  - unfold w_stop in E. destruct (nth_error (workers _ _ s) i) as [[]|]; try discriminate. destruct (alive S P s); [discriminate|]. injection E as <-. apply incl_refl.
  - unfold m_log in E. destruct (main _ _ s); try discriminate; destruct (log _ _ s) as [|[|] ?]; try discriminate;
      repeat match type of E with (if ?b then _ else _) = _ => destruct b end; injection E as <-; apply incl_refl.
  - unfold m_disconnect in E. destruct (main _ _ s); try discriminate; destruct (log _ _ s); try discriminate; destruct (alive S P s); try discriminate; injection E as <-; apply incl_refl.
  - unfold m_timeout in E. destruct (main _ _ s); try discriminate. destruct (timeouts o); [|discriminate]. injection E as <-; apply incl_refl.
  - unfold m_join in E. destruct (main _ _ s); try discriminate. destruct (forallb _ (workers _ _ s)); [|discriminate]. injection E as <-; apply incl_refl.
Qed.
Lemma exec_enqueued : forall ls s s', exec stepb ls s = Some s' -> incl (enqueued _ _ s) (enqueued _ _ s').
Proof.
  induction ls as [|a ls IH]; intros s s' E; cbn [exec] in E; [injection E as <-; apply incl_refl|].
  destruct (stepb a s) as [s1|] eqn:Es; [|discriminate]. eapply incl_tran; [eapply step_enqueued; exact Es|eapply IH; exact E].
Qed.
End Badger.
