(** Proofs of the properties C01 - C05: the optimiser's priority queue and the single-threaded search. *)
From Coq Require Import List Bool Arith Lia Permutation.
From Verif Require Import PQueueSpec PQueueModel PQueueProofs SearchSpec SearchModel SearchProofs SearchOptimal.
Import ListNotations.

Lemma C01_refines_bounded_queue_pf : forall (S P : Type) (ltb : P -> P -> bool), strict_weak ltb ->
  forall max n_best ties (cs : list (call S P)),
  exists q os l sn, do_calls ltb (pq_new max n_best ties) cs = Some (q, os) /\
    abs_run ltb max ([], []) cs os (l, sn) /\
    map (fun e => (ehash e, ecost e)) l = queue q.
Proof.
  intros S P ltb SW max nb t cs.
  destruct (do_calls_ok SW cs (inv_new S ltb max nb t)) as (q & os & E & R & I & _ & _).
  exists q, os, (ents q), (seen q). split; [exact E|]. split; [exact R|]. eapply ents_queue; exact I.
Qed.

Lemma C01_bounded_and_unique_pf : forall (S P : Type) (ltb : P -> P -> bool), strict_weak ltb ->
  forall max n_best ties (cs : list (call S P)) q os,
  do_calls ltb (pq_new max n_best ties) cs = Some (q, os) ->
  length (queue q) <= max /\ NoDup (map fst (queue q)) /\
  NoDup (map ehash (accepted os)) /\ NoDup (map ehash (popped os)) /\ incl (popped os) (accepted os).
Proof.
  intros S P ltb SW max nb t cs q os E.
  destruct (do_calls_ok SW cs (inv_new S ltb max nb t)) as (q' & os' & E' & R & I & M & _).
  rewrite E in E'. injection E' as <- <-.
  pose proof (abs_run_inv SW R (abs_inv_init S ltb max)) as B. cbn in B, I.
  split; [rewrite <- (ents_length I); apply (a_len B)|]. split; [apply (i_nodup I)|]. split; [apply (a_acc B)|].
  split.
  - pose proof (a_nodup B) as N. cbn in N. rewrite map_app in N.
    apply (Permutation_NoDup (Permutation_app_comm _ _)) in N. eapply NoDup_app_r; exact N.
  - intros e He. apply (a_incl B). apply in_app_iff; auto.
Qed.

Lemma C02_n_cheapest_accepted_pf : forall (S P : Type) (ltb : P -> P -> bool), strict_weak ltb ->
  forall max n ties (cs : list (call S P)) q os,
  do_calls ltb (pq_new max (Some n) ties) cs = Some (q, os) ->
  exists best, into_all_time_best ltb q = Some (Some (map estate best)) /\
    n_cheapest ltb n (accepted os) best.
Proof.
  intros S P ltb SW max n t cs q os E.
  destruct (do_calls_ok SW cs (inv_new S ltb max (Some n) t)) as (q' & os' & E' & R & I & M & Ca).
  rewrite E in E'. injection E' as <- <-.
  unfold atb_cap in Ca. cbn in Ca. destruct (atb q) as [[n' b]|] eqn:Ea; [|discriminate]. injection Ca as ->.
  apply (into_atb_ok SW I Ea).
Qed.

Lemma C02_n_cheapest_offered_pf : forall (S P : Type) (ltb : P -> P -> bool), strict_weak ltb ->
  forall max n ties (cs : list (call S P)) q os, n <= max ->
  do_calls ltb (pq_new max (Some n) ties) cs = Some (q, os) ->
  exists best, into_all_time_best ltb q = Some (Some (map estate best)) /\
    forall s h c, In (Push s h c) cs -> ~ In h (map ehash (accepted os)) ->
      length best = n /\ forall x, In x best -> ltb c (ecost x) = false.
Proof.
  intros S P ltb SW max n t cs q os Hn E.
  destruct (do_calls_ok SW cs (inv_new S ltb max (Some n) t)) as (q' & os' & E' & R & I & M & Ca).
  rewrite E in E'. injection E' as <- <-.
  unfold atb_cap in Ca. cbn in Ca. destruct (atb q) as [[n' b]|] eqn:Ea; [|discriminate]. injection Ca as ->.
  destruct (into_atb_ok SW I Ea) as (best & Eb & Hb). exists best. split; [exact Eb|].
  intros s h c Hin Hna. cbn [app] in *. 
  destruct (abs_run_offered SW R (abs_inv_init S ltb max) s h c Hin) as [X|(w & Nw & Iw & Lw & Cw)]; [contradiction|].
  eapply cheapest_offered; [exact SW|exact (i_acc I)|exact Hb|exact Hn|exact Nw|exact Iw|exact Lw|exact Cw].
Qed.

Lemma C02_large_n_refuted_pf : exists (cs : list (call nat nat)) q os best,
  do_calls Nat.ltb (pq_new 1 (Some 2) (fun _ => 0)) cs = Some (q, os) /\
  into_all_time_best Nat.ltb q = Some (Some best) /\ In (Push 8 8 8) cs /\ best = [3] /\
  ~ In 8 (map ehash (accepted os)).
Proof.
  exists [Push 3 3 3; Push 8 8 8].
  match goal with |- exists q os best, ?r = _ /\ _ =>
    let v := eval vm_compute in r in match v with Some (?q, ?o) => exists q, o, [3] end end.
  split; [vm_compute; reflexivity|]. split; [vm_compute; reflexivity|]. split; [right; left; reflexivity|]. split; [reflexivity|]. cbn. lia.
Qed.

Lemma C02_truncate_refuted_pf : exists (cs : list (call nat nat)) q os,
  do_calls Nat.ltb (pq_new 4 (Some 2) (fun _ => 0)) cs = Some (q, os) /\
  into_all_time_best Nat.ltb (truncate Nat.ltb q 1) = None.
Proof.
  exists [Push 3 3 3; Push 8 8 8]. 
  match goal with |- exists q os, ?r = _ /\ _ =>
    let v := eval vm_compute in r in match v with Some (?q, ?o) => exists q, o end end.
  split; [vm_compute; reflexivity|]. vm_compute. reflexivity.
Qed.

Lemma C03_search_safe_pf : forall (S P C : Type) (ltb : P -> P -> bool) hash cost next, strict_weak ltb ->
  forall (o : options) (s0 : S) (c0 : C) fuel ties,
  match search ltb hash cost next fuel o ties s0 c0 with
  | OutOfFuel => True
  | Panic => False
  | NoResult => cost c0 s0 = None \/ hash c0 s0 = None \/ queue_size o = 0
  | Result best n_best visited exhausted final =>
      (cost c0 s0 <> None /\ hash c0 s0 <> None /\ 0 < queue_size o) /\
      (exists eb, In eb visited /\ estate eb = best /\
         forall e, In e visited -> ltb (ecost e) (ecost eb) = false) /\
      (exists e0, In e0 visited /\ estate e0 = s0 /\ cost c0 s0 = Some (ecost e0)) /\
      (forall e, In e visited -> reach next s0 (estate e) /\
         exists c, hash c (estate e) = Some (ehash e) /\ cost c (estate e) = Some (ecost e)) /\
      NoDup (map ehash visited) /\
      match max_visited o with Some m => length visited <= max 1 m | None => True end /\
      (n_best = None <-> track_n_best o = None)
  end.
Proof.
  intros S P C ltb hash cost next SW o s0 c0 fuel t.
  pose proof (search_post hash cost next SW o s0 c0 fuel t) as HP.
  destruct (search ltb hash cost next fuel o t s0 c0) as [| | |best nb vis ex qf]; auto.
  destruct HP as (H1 & (acc & bc & L & Hv & Hex & Hnb) & Hm). split; [assumption|].
  assert (Hrev : forall e, In e vis -> In e (rev vis)) by (intros e He; rewrite <- in_rev; assumption).
  split; [|split; [|split; [|split; [|split]]]].
  - destruct (l_best L) as (eb & Hb & Es & Ec & Hor). exists eb. split.
    + destruct Hor as [Hor|[Hor _]]; [rewrite in_rev; assumption|]. exfalso. apply Hv.
      rewrite <- (rev_involutive vis), Hor. reflexivity.
    + split; [assumption|]. intros e He. rewrite Ec. apply (l_least L); auto.
  - destruct (l_start L) as (e0 & Ha & Es & Ec & Eh & Hor). exists e0. split; [|auto].
    destruct Hor as [Hor|Hor]; [|rewrite in_rev; assumption].
    destruct vis as [|e r]; [congruence|]. left.
    assert (In e acc) by (apply (visited_In L); apply Hrev; left; reflexivity).
    rewrite Hor in H. destruct H as [<-|[]]; reflexivity.
  - intros e He. apply (l_found L). apply (visited_In L); auto.
  - pose proof (a_nodup (l_abs L)) as N. rewrite rev_involutive in N. cbn in N. rewrite map_app in N.
    apply (Permutation_NoDup (Permutation_app_comm _ _)) in N. eapply NoDup_app_r; exact N.
  - exact Hm.
  - destruct nb, (track_n_best o); split; intro; try congruence; contradiction.
Qed.

Lemma C03_search_terminates_pf : forall (S P C : Type) (ltb : P -> P -> bool) hash cost next, strict_weak ltb ->
  forall (o : options) (s0 : S) (c0 : C) ties,
  (exists m, max_visited o = Some m) \/
  (exists U, forall s c h, reach next s0 s -> hash c s = Some h -> In h U) ->
  exists fuel0, forall fuel, fuel0 <= fuel -> search (P := P) ltb hash cost next fuel o ties s0 c0 <> OutOfFuel.
Proof.
  intros S P C ltb hash cost next SW o s0 c0 t [(m & Hm)|(U & HU)].
  - exists (max 1 m). intros fuel Hf. eapply search_budget; eassumption.
  - exists (Datatypes.S (length U)). intros fuel Hf. eapply search_terminates; [exact SW|exact HU|lia].
Qed.

Lemma C03_zero_limit_refuted_pf : forall (S P C : Type) (ltb : P -> P -> bool) hash cost next, strict_weak ltb ->
  forall (o : options) (s0 : S) (c0 : C) fuel ties,
  max_visited o = Some 0 ->
  match search ltb hash cost next fuel o ties s0 c0 with
  | Result _ _ visited _ _ => length visited = 1
  | _ => True
  end.
Proof.
  intros S P C ltb hash cost next SW o s0 c0 fuel t Hm.
  pose proof (search_post hash cost next SW o s0 c0 fuel t) as HP.
  destruct (search ltb hash cost next fuel o t s0 c0) as [| | |best nb vis ex qf]; auto.
  destruct HP as (_ & (acc & bc & L & Hv & _) & Hb). rewrite Hm in Hb. destruct vis as [|? [|]]; [congruence|reflexivity|cbn in Hb; lia].
Qed.

Lemma C04_exhaustive_optimal_pf : forall (S P C : Type) (ltb : P -> P -> bool) hash cost next, strict_weak ltb ->
  forall (o : options) (s0 : S) (c0 : C) fuel ties best n_best visited exhausted final,
  (forall c s, hash c s = hash c0 s) -> (forall c s, cost c s = cost c0 s) ->
  (forall c s, fst (next c s) = fst (next c0 s)) ->
  (forall s, reach next s0 s -> hash c0 s <> None /\ cost c0 s <> None) ->
  (forall s s' h, reach next s0 s -> reach next s0 s' -> hash c0 s = Some h -> hash c0 s' = Some h -> s = s') ->
  search ltb hash cost next fuel o ties s0 c0 = Result best n_best visited exhausted final ->
  length visited = length (seen final) ->
  (forall e s' h, In e visited -> In s' (fst (next c0 (estate e))) -> hash c0 s' = Some h -> In h (seen final)) ->
  forall s k kb, reach next s0 s -> cost c0 s = Some k -> cost c0 best = Some kb -> ltb k kb = false.
Proof.
  intros S P C ltb hash cost next SW o s0 c0 fuel t best nb vis ex qf Hh Hc Hn Hd Hi E Hl Hclo.
  pose proof (search_post hash cost next SW o s0 c0 fuel t) as HP. rewrite E in HP. destruct HP as (_ & HP & _).
  eapply exhaustive_optimal; eauto.
  eapply exhaustive_visits; eauto.
Qed.

Lemma C04_large_queue_optimal_pf : forall (S P C : Type) (ltb : P -> P -> bool) hash cost next, strict_weak ltb ->
  forall (o : options) (s0 : S) (c0 : C) (U : list nat) ties,
  (forall c s, hash c s = hash c0 s) -> (forall c s, cost c s = cost c0 s) ->
  (forall c s, fst (next c s) = fst (next c0 s)) ->
  (forall s, reach next s0 s -> hash c0 s <> None /\ cost c0 s <> None) ->
  (forall s s' h, reach next s0 s -> reach next s0 s' -> hash c0 s = Some h -> hash c0 s' = Some h -> s = s') ->
  (forall s h, reach next s0 s -> hash c0 s = Some h -> In h U) -> length U <= queue_size o ->
  (forall k, stop o k = false) -> max_visited o = None ->
  exists fuel0, forall fuel, fuel0 <= fuel ->
  exists best n_best visited final,
    search ltb hash cost next fuel o ties s0 c0 = Result best n_best visited true final /\
    (forall s, reach next s0 s -> exists e, In e visited /\ estate e = s) /\
    forall s k kb, reach next s0 s -> cost c0 s = Some k -> cost c0 best = Some kb -> ltb k kb = false.
Proof.
  intros S P C ltb hash cost next SW o s0 c0 U t Hh Hc Hn Hd Hi HU HL Hs Hm.
  exists (Datatypes.S (length U)). intros fuel Hf.
  assert (Hq : 0 < queue_size o).
  { destruct (Hd s0 (reach_refl _ _ next s0)) as [Hd0 _]. destruct (hash c0 s0) as [h|] eqn:E; [|congruence].
    specialize (HU s0 h (reach_refl _ _ next s0) E). destruct U; [destruct HU|]. cbn in HL. lia. }
  destruct (search_complete hash cost SW o c0 Hh Hc Hn Hd Hi U HU HL (fuel:=fuel) t Hs Hm Hq) as (best & nb & vis & qf & E & HP & Hv); [lia|].
  exists best, nb, vis, qf. split; [exact E|]. split; [exact Hv|]. eapply exhaustive_optimal; eauto.
Qed.

Lemma C05_agree_pf : forall (S P C : Type) (ltb : P -> P -> bool) hash cost next, strict_weak ltb ->
  forall (o : options) (s0 : S) (c0 : C) fuel ties best n_best visited exhausted final n,
  search ltb hash cost next fuel o ties s0 c0 = Result best n_best visited exhausted final ->
  track_n_best o = Some n -> 0 < n ->
  exists eb e1 rest, n_best = Some (map estate (e1 :: rest)) /\ In eb visited /\ estate eb = best /\
    ltb (ecost eb) (ecost e1) = false /\ (exhausted = true -> ltb (ecost e1) (ecost eb) = false).
Proof.
  intros S P C ltb hash cost next SW o s0 c0 fuel t best nb vis ex qf n E Hn Hp.
  pose proof (search_post hash cost next SW o s0 c0 fuel t) as HP. rewrite E in HP. destruct HP as (_ & HP & _).
  destruct (agree SW HP Hn Hp) as (es & eb & E1 & Hb & Es & _ & e1 & r & -> & H1 & H2).
  exists eb, e1, r. auto.
Qed.

Lemma C05_cut_off_refuted_pf : exists o best n_best visited final,
  search Nat.ltb (fun _ s => Some s) (fun _ s => Some s) (fun _ s => ([s - 1], tt)) 10 o (fun _ => 0) 5 tt
    = Result best (Some n_best) visited false final /\
  best = 5 /\ n_best = [4] /\ max_visited o = Some 1.
Proof.
  exists {| queue_size := 4; max_visited := Some 1; track_n_best := Some 1; stop := fun _ => false |}.
  match goal with |- exists best nb vis fin, ?r = _ /\ _ =>
    let v := eval vm_compute in r in
    match v with Result ?b (Some ?l) ?vi _ ?f => exists b, l, vi, f end end.
  split; [vm_compute; reflexivity|]. repeat split.
Qed.

