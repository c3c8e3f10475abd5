(** Proofs of the properties of multi-threaded Badger (C06 to C08). *)
From Coq Require Import List Bool Arith Lia.
From Verif Require Import PQueueSpec PQueueModel PQueueProofs BadgerSpec BadgerModel BadgerProofs BadgerTerm.
Import ListNotations.

Lemma C06_safety_pf : forall (S P D : Type) (ltb : P -> P -> bool), strict_weak ltb ->
  forall (hash : S -> option nat) (rw : S -> list (S * D)) (add_delta : P -> D -> P) (o : options) s0 c0 h0 ties,
  hash s0 = Some h0 ->
  forall s, reachable_from (step ltb hash rw add_delta o) (init o s0 c0 h0 ties) s ->
  q_status S P s <> QPanic /\
  derived rw add_delta s0 c0 (best S P s) (best_cost S P s) /\ ltb c0 (best_cost S P s) = false /\
  NoDup (map ehash (handed S P s)) /\
  (forall w, In w (handed S P s) -> derived rw add_delta s0 c0 (estate w) (ecost w) /\ hash (estate w) = Some (ehash w)).
Proof.
  intros S P D ltb SW hash rw add_delta o s0 c0 h0 ties H0 s [ls E].
  assert (V : INV S P D ltb hash rw add_delta o s0 c0 s) by (eapply reach_INV; eassumption). destruct V.
  split; [assumption|]. split; [assumption|]. split; [assumption|]. split; [apply v_q|].
  intros w Hw. rewrite Forall_forall in v_handed. apply v_handed. assumption.
Qed.

Lemma C06_cost_and_meaning_pf : forall (S P D : Type) (ltb : P -> P -> bool), strict_weak ltb ->
  forall (hash : S -> option nat) (rw : S -> list (S * D)) (add_delta : P -> D -> P) (cost : S -> P) (equiv : S -> S -> Prop) (o : options) s0 h0 ties,
  hash s0 = Some h0 ->
  (forall s s' d, In (s', d) (rw s) -> cost s' = add_delta (cost s) d) ->
  (forall s, equiv s s) -> (forall a b c, equiv a b -> equiv b c -> equiv a c) -> (forall s s' d, In (s', d) (rw s) -> equiv s s') ->
  forall s, reachable_from (step ltb hash rw add_delta o) (init o s0 (cost s0) h0 ties) s ->
  best_cost S P s = cost (best S P s) /\ ltb (cost s0) (cost (best S P s)) = false /\ equiv s0 (best S P s).
Proof.
  intros S P D ltb SW hash rw add_delta cost equiv o s0 h0 ties H0 Hc Hr Ht He s R.
  destruct (C06_safety_pf S P D ltb SW hash rw add_delta o s0 (cost s0) h0 ties H0 s R) as (_ & Hd & Hl & _).
  assert (G : forall x c, derived rw add_delta s0 (cost s0) x c -> c = cost x /\ equiv s0 x).
  { intros x c K. induction K as [|x c x' d K [IH1 IH2] Hin]; [auto|]. subst c. split; [symmetry; apply Hc; assumption|eauto]. }
  destruct (G _ _ Hd) as [E1 E2]. rewrite <- E1. auto.
Qed.

Lemma C06_best_of_enqueued_pf : forall (S P D : Type) (ltb : P -> P -> bool), strict_weak ltb ->
  forall (hash : S -> option nat) (rw : S -> list (S * D)) (add_delta : P -> D -> P) (o : options) s0 c0 h0 ties,
  hash s0 = Some h0 ->
  forall s, reachable_from (step ltb hash rw add_delta o) (init o s0 c0 h0 ties) s -> main S P s = MDone ->
  forall w, In w (enqueued S P s) -> ltb (ecost w) (best_cost S P s) = false.
Proof.
  intros S P D ltb SW hash rw add_delta o s0 c0 h0 ties H0 s [ls E] M w Hw.
  assert (V : INV S P D ltb hash rw add_delta o s0 c0 s) by (eapply reach_INV; eassumption). destruct V.
  destruct (v_end (or_intror M)) as [El _]. destruct (v_cov_enq w Hw) as [K|(x & c & K & _)]; [assumption|]. rewrite El in K. destruct K.
Qed.

Lemma C06_exhaustive_optimal_pf : forall (S P D : Type) (ltb : P -> P -> bool), strict_weak ltb ->
  forall (hash : S -> option nat) (rw : S -> list (S * D)) (add_delta : P -> D -> P) (cost : S -> P) (o : options) s0 h0 ties (U : list nat),
  hash s0 = Some h0 ->
  (forall s s' d, In (s', d) (rw s) -> cost s' = add_delta (cost s) d) ->
  (forall s c h, derived rw add_delta s0 (cost s0) s c -> hash s = Some h -> In h U) -> length U < queue_size o ->
  (forall s c s' c' h, derived rw add_delta s0 (cost s0) s c -> derived rw add_delta s0 (cost s0) s' c' -> hash s = Some h -> hash s' = Some h -> s = s') ->
  forall s, reachable_from (step ltb hash rw add_delta o) (init o s0 (cost s0) h0 ties) s ->
  q_status S P s = QRun -> push S P s = [] -> queue (q_pq S P s) = [] -> (forall w, In w (workers S P s) -> w = WIdle S P) ->
  forall s', reachable_from (step ltb hash rw add_delta o) s s' -> main S P s' = MDone ->
  forall x, derived_valid rw (fun y => hash y <> None) s0 x -> ltb (cost x) (cost (best S P s')) = false.
Proof.
  intros S P D ltb SW hash rw add_delta cost o s0 h0 ties U H0 Hc HU HB HI s [ls E] R Ep Eq Ew s' [ls' E'] M x Hx.
  assert (R' : reachable_from (step ltb hash rw add_delta o) (init o s0 (cost s0) h0 ties) s').
  { exists (ls ++ ls'). rewrite exec_app, E. exact E'. }
  destruct (exhausted_complete S P D ltb SW hash rw add_delta o s0 (cost s0) h0 ties H0 U HU HB HI ls s E R Ep Eq) with (x := x) as (w & Hw & <- & [Dw _]); [apply Forall_forall; assumption|assumption|].
  assert (G : forall x c, derived rw add_delta s0 (cost s0) x c -> c = cost x).
  { intros y c K. induction K as [|y c y' d K IH Hin]; [auto|]. subst c. symmetry. apply Hc. assumption. }
  rewrite <- (G _ _ Dw).
  destruct (C06_safety_pf S P D ltb SW hash rw add_delta o s0 (cost s0) h0 ties H0 s' R') as (_ & Db & _). rewrite <- (G _ _ Db).
  apply (C06_best_of_enqueued_pf S P D ltb SW hash rw add_delta o s0 (cost s0) h0 ties H0 s' R' M).
  eapply exec_enqueued; eassumption.
Qed.

Lemma C07_never_returns_refuted_pf : forall (S P D : Type) (ltb : P -> P -> bool), strict_weak ltb ->
  forall (hash : S -> option nat) (rw : S -> list (S * D)) (add_delta : P -> D -> P) (o : options) s0 c0 h0 ties,
  hash s0 = Some h0 -> timeouts o = false -> max_circuit_count o = None ->
  forall s, reachable_from (step ltb hash rw add_delta o) (init o s0 c0 h0 ties) s -> main S P s = MLoop.
Proof.
  intros S P D ltb SW hash rw add_delta o s0 c0 h0 ties H0 To Mc s [ls E].
  destruct (loops_forever S P D ltb SW hash rw add_delta o s0 c0 h0 ties H0 To Mc ls s E). assumption.
Qed.

Lemma C07_deadlock_refuted_pf : forall (S P D : Type) (ltb : P -> P -> bool), strict_weak ltb ->
  forall (hash : S -> option nat) (rw : S -> list (S * D)) (add_delta : P -> D -> P) (o : options) s0 c0 h0 ties (U : list nat),
  hash s0 = Some h0 -> timeouts o = false -> max_circuit_count o = None ->
  (forall s c h, derived rw add_delta s0 c0 s c -> hash s = Some h -> In h U) ->
  terminating (step ltb hash rw add_delta o) (init o s0 c0 h0 ties) /\
  exists s, reachable_from (step ltb hash rw add_delta o) (init o s0 c0 h0 ties) s /\ stuck (step ltb hash rw add_delta o) s /\ main S P s = MLoop.
Proof.
  intros S P D ltb SW hash rw add_delta o s0 c0 h0 ties U H0 To Mc HU.
  assert (V : INV S P D ltb hash rw add_delta o s0 c0 (init o s0 c0 h0 ties)) by (apply init_INV; assumption).
  assert (T : terminating (step ltb hash rw add_delta o) (init o s0 c0 h0 ties)) by (eapply finite_terminating; eassumption).
  split; [exact T|]. destruct (maximal _ _ _ _ _ _ _ _ _ T) as (ls & s & E & K). exists s. split; [exists ls; exact E|]. split; [exact K|].
  eapply C07_never_returns_refuted_pf; eauto. exists ls. exact E.
Qed.

Lemma C07_with_timeout_partial_pf : forall (S P D : Type) (ltb : P -> P -> bool), strict_weak ltb ->
  forall (hash : S -> option nat) (rw : S -> list (S * D)) (add_delta : P -> D -> P) (o : options) s0 c0 h0 ties (U : list nat),
  hash s0 = Some h0 -> timeouts o = true ->
  (forall s c h, derived rw add_delta s0 c0 s c -> hash s = Some h -> In h U) ->
  terminating (step ltb hash rw add_delta o) (init o s0 c0 h0 ties) /\
  forall s, reachable_from (step ltb hash rw add_delta o) (init o s0 c0 h0 ties) s -> stuck (step ltb hash rw add_delta o) s -> main S P s = MDone.
Proof.
  intros S P D ltb SW hash rw add_delta o s0 c0 h0 ties U H0 To HU.
  assert (V : INV S P D ltb hash rw add_delta o s0 c0 (init o s0 c0 h0 ties)) by (apply init_INV; assumption).
  split; [eapply finite_terminating; eassumption|].
  intros s [ls E] K. destruct (stuck_cases S P D ltb hash rw add_delta o s0 c0 s) as [X|(X & _)]; [eapply reach_INV; eassumption|assumption|assumption|congruence].
Qed.

Lemma C07_can_return_partial_pf : forall (S P D : Type) (ltb : P -> P -> bool), strict_weak ltb ->
  forall (hash : S -> option nat) (rw : S -> list (S * D)) (add_delta : P -> D -> P) (o : options) s0 c0 h0 ties,
  hash s0 = Some h0 ->
  forall s, reachable_from (step ltb hash rw add_delta o) (init o s0 c0 h0 ties) s ->
  (timeouts o = true -> exists s', reachable_from (step ltb hash rw add_delta o) s s' /\ main S P s' = MDone) /\
  (q_status S P s <> QRun -> terminating (step ltb hash rw add_delta o) s /\
     forall s', reachable_from (step ltb hash rw add_delta o) s s' -> stuck (step ltb hash rw add_delta o) s' -> main S P s' = MDone).
Proof.
  intros S P D ltb SW hash rw add_delta o s0 c0 h0 ties H0 s [ls E].
  assert (V : INV S P D ltb hash rw add_delta o s0 c0 s) by (eapply reach_INV; eassumption).
  split.
  - intro To. destruct (can_return S P D ltb SW hash rw add_delta o s0 c0 h0 ties s V To) as (ls' & s' & E' & M). exists s'. split; [exists ls'; assumption|assumption].
  - intro N. split; [eapply closed_terminating; eassumption|]. intros s' [ls' E'] K.
    assert (V' : INV S P D ltb hash rw add_delta o s0 c0 s') by (eapply exec_INV; eassumption).
    destruct (stuck_cases S P D ltb hash rw add_delta o s0 c0 s' V' K) as [X|(_ & _ & X & _)]; [assumption|]. exfalso. eapply exec_done; eassumption.
Qed.

Lemma C07_blocks_only_when_exhausted_pf : forall (S P D : Type) (ltb : P -> P -> bool), strict_weak ltb ->
  forall (hash : S -> option nat) (rw : S -> list (S * D)) (add_delta : P -> D -> P) (o : options) s0 c0 h0 ties,
  hash s0 = Some h0 ->
  forall s, reachable_from (step ltb hash rw add_delta o) (init o s0 c0 h0 ties) s -> stuck (step ltb hash rw add_delta o) s -> main S P s <> MDone ->
  timeouts o = false /\ main S P s = MLoop /\ q_status S P s = QRun /\ push S P s = [] /\ log S P s = [] /\
  (forall w, In w (workers S P s) -> w = WIdle S P) /\ (0 < n_threads o -> queue (q_pq S P s) = []).
Proof.
  intros S P D ltb SW hash rw add_delta o s0 c0 h0 ties H0 s [ls E] K N.
  assert (V : INV S P D ltb hash rw add_delta o s0 c0 s) by (eapply reach_INV; eassumption).
  destruct (stuck_cases S P D ltb hash rw add_delta o s0 c0 s V K) as [X|(A1 & A2 & A3 & A4 & A5 & A6 & A7)]; [congruence|].
  assert (W : forall w, In w (workers S P s) -> w = WIdle S P).
  { intros w Hw. destruct (A6 w Hw) as [X|X]; [assumption|]. exfalso. subst w. eapply alive_workers; eassumption. }
  repeat (split; [assumption|]). intro L. apply A7. destruct V. destruct (workers S P s) as [|w ws]; [simpl in v_nworkers; lia|]. rewrite (W w (or_introl eq_refl)). left. reflexivity.
Qed.

Lemma C08_never_set_refuted_pf : forall (S P D : Type) (ltb : P -> P -> bool), strict_weak ltb ->
  forall (hash : S -> option nat) (rw : S -> list (S * D)) (add_delta : P -> D -> P) (o : options) s0 c0 h0 ties,
  hash s0 = Some h0 ->
  forall s, reachable_from (step ltb hash rw add_delta o) (init o s0 c0 h0 ties) s -> shared_max S P s = None.
Proof.
  intros S P D ltb SW hash rw add_delta o s0 c0 h0 ties H0 s [ls E].
  assert (V : INV S P D ltb hash rw add_delta o s0 c0 s) by (eapply reach_INV; eassumption). apply (v_shared _ _ _ _ _ _ _ _ _ _ _ V).
Qed.

Lemma C08_full_and_unset_refuted_pf : exists (s : st nat nat) o,
  reachable_from (step Nat.ltb (fun n => Some n) (fun n => [(n + 1, 1); (n + 2, 2)]) Nat.add o) (init o 0 0 0 (fun _ => 0)) s /\
  length (queue (q_pq nat nat s)) = max_size (q_pq nat nat s) /\ 0 < max_size (q_pq nat nat s) /\ shared_max nat nat s = None /\
  max_cost Nat.ltb (q_pq nat nat s) = Some 1.
Proof.
  destruct (exec (step Nat.ltb (fun n => Some n) (fun n => [(n + 1, 1); (n + 2, 2)]) Nat.add {| queue_size := 1; max_circuit_count := None; timeouts := true; n_threads := 1 |})
    [QRecv; QGive 0; WRewrite 0; WSend 0; QRecv]
    (init {| queue_size := 1; max_circuit_count := None; timeouts := true; n_threads := 1 |} 0 0 0 (fun _ => 0))) as [s|] eqn:E; [|vm_compute in E; discriminate].
  exists s, {| queue_size := 1; max_circuit_count := None; timeouts := true; n_threads := 1 |}.
  split; [eexists; exact E|]. vm_compute in E. injection E as <-. vm_compute. repeat split; auto.
Qed.

Lemma C08_no_discard_partial_pf : forall (S P D : Type) (ltb : P -> P -> bool), strict_weak ltb ->
  forall (hash : S -> option nat) (rw : S -> list (S * D)) (add_delta : P -> D -> P) (o : options) s0 c0 h0 ties,
  hash s0 = Some h0 ->
  forall s s' i w, reachable_from (step ltb hash rw add_delta o) (init o s0 c0 h0 ties) s ->
  nth_error (workers S P s) i = Some (WBusy S P w) -> step ltb hash rw add_delta o (WRewrite i) s = Some s' ->
  exists b, In (WReady S P b) (workers S P s') /\
  (forall x d h, In (x, d) (rw (estate w)) -> hash x = Some h -> In (h, add_delta (ecost w) d, x) b) /\
  (forall e, In e b -> exists d, In (estate e, d) (rw (estate w)) /\ hash (estate e) = Some (ehash e) /\ ecost e = add_delta (ecost w) d).
Proof.
  intros S P D ltb SW hash rw add_delta o s0 c0 h0 ties H0 s s' i w R Ew E.
  pose proof (C08_never_set_refuted_pf S P D ltb SW hash rw add_delta o s0 c0 h0 ties H0 s R) as Sh.
  simpl in E. unfold w_rewrite in E. rewrite Ew, Sh in E. injection E as <-.
  eexists. split; [simpl; eapply in_set_worker_new; exact Ew|]. split.
  - intros x d h K1 K2. unfold new_circs. apply in_flat_map. exists (x, d). split; [assumption|]. cbn. rewrite K2. left. reflexivity.
  - intros e He. unfold new_circs in He. apply in_flat_map in He. destruct He as ([x d] & K1 & K2). cbn in K2. destruct (hash x) as [h|] eqn:Eh; [|destruct K2].
    destruct K2 as [<-|[]]. exists d. auto.
Qed.

