(** Properties C01 - C05: the optimiser's priority queue and the single-threaded search. *)
From Coq Require Import List Bool Arith Lia Permutation.
From Verif Require Import PQueueSpec PQueueModel PQueueProofs SearchSpec SearchModel SearchProofs SearchOptimal SearchMain.
Import ListNotations.

(** ** C01 *)

(** Whatever the calls, costs, hashes, capacity, tracking option and heap layout: no call
    panics, and the answers are those of an abstract bounded queue that holds exactly the
    entries of the model's queue. *)
Theorem C01_refines_bounded_queue : forall (S P : Type) (ltb : P -> P -> bool), strict_weak ltb ->
  forall max n_best ties (cs : list (call S P)),
  exists q os l sn, do_calls ltb (pq_new max n_best ties) cs = Some (q, os) /\
    abs_run ltb max ([], []) cs os (l, sn) /\
    map (fun e => (ehash e, ecost e)) l = queue q.
Proof. exact C01_refines_bounded_queue_pf. Qed.

(** In particular: never more than [max] entries are queued; no hash is accepted twice; only
    accepted entries are returned, each at most once. *)
Theorem C01_bounded_and_unique : forall (S P : Type) (ltb : P -> P -> bool), strict_weak ltb ->
  forall max n_best ties (cs : list (call S P)) q os,
  do_calls ltb (pq_new max n_best ties) cs = Some (q, os) ->
  length (queue q) <= max /\ NoDup (map fst (queue q)) /\
  NoDup (map ehash (accepted os)) /\ NoDup (map ehash (popped os)) /\ incl (popped os) (accepted os).
Proof. exact C01_bounded_and_unique_pf. Qed.

(** ** C02 *)

(** After any calls, the list of best states is the list of the [n] cheapest accepted states,
    in order of cost; reading it does not panic. *)
Theorem C02_n_cheapest_accepted : forall (S P : Type) (ltb : P -> P -> bool), strict_weak ltb ->
  forall max n ties (cs : list (call S P)) q os,
  do_calls ltb (pq_new max (Some n) ties) cs = Some (q, os) ->
  exists best, into_all_time_best ltb q = Some (Some (map estate best)) /\
    n_cheapest ltb n (accepted os) best.
Proof. exact C02_n_cheapest_accepted_pf. Qed.

(** If [n] is at most the capacity, nothing cheaper was ever offered: an offered hash that was
    never accepted costs at least as much as all of the [n] best. *)
Theorem C02_n_cheapest_offered : forall (S P : Type) (ltb : P -> P -> bool), strict_weak ltb ->
  forall max n ties (cs : list (call S P)) q os, n <= max ->
  do_calls ltb (pq_new max (Some n) ties) cs = Some (q, os) ->
  exists best, into_all_time_best ltb q = Some (Some (map estate best)) /\
    forall s h c, In (Push s h c) cs -> ~ In h (map ehash (accepted os)) ->
      length best = n /\ forall x, In x best -> ltb c (ecost x) = false.
Proof. exact C02_n_cheapest_offered_pf. Qed.

(** With [n] above the capacity that fails: the second of two states is refused and is not in
    the list, although the list has room. *)
Theorem C02_large_n_refuted : exists (cs : list (call nat nat)) q os best,
  do_calls Nat.ltb (pq_new 1 (Some 2) (fun _ => 0)) cs = Some (q, os) /\
  into_all_time_best Nat.ltb q = Some (Some best) /\ In (Push 8 8 8) cs /\ best = [3] /\
  ~ In 8 (map ehash (accepted os)).
Proof. exact C02_large_n_refuted_pf. Qed.

(** Truncating the queue drops states that the list of best states still refers to: reading
    the list then panics. *)
Theorem C02_truncate_refuted : exists (cs : list (call nat nat)) q os,
  do_calls Nat.ltb (pq_new 4 (Some 2) (fun _ => 0)) cs = Some (q, os) /\
  into_all_time_best Nat.ltb (truncate Nat.ltb q 1) = None.
Proof. exact C02_truncate_refuted_pf. Qed.

(** ** C03 *)

(** The search never panics. If it returns: the best state was visited and costs no more than
    the start or any visited state; visited states are reachable, in increasing order of
    discovery the start first, with the cost and hash they were queued with; no hash is visited
    twice; at most max(1, limit) states are visited; the list of best states is given exactly
    when asked for. It returns nothing exactly if the start has no cost or hash, or the
    queue has no room. *)
Theorem C03_search_safe : forall (S P C : Type) (ltb : P -> P -> bool) hash cost next, strict_weak ltb ->
  forall (o : options) (s0 : S) (c0 : C) fuel ties,
  match search ltb hash cost next fuel o ties s0 c0 with
  | OutOfFuel => True
  | Panic => False
  | NoResult => cost c0 s0 = None \/ hash c0 s0 = None \/ queue_size o = 0
  | Result best n_best visited exhausted final =>
      (cost c0 s0 <> None /\ hash c0 s0 <> None /\ 0 < queue_size o) /\
      (exists eb, In eb visited /\ estate eb = best /\
         forall e, In e visited -> ltb (ecost e) (ecost eb) = false) /\
      (exists e0, In e0 visited /\ estate e0 = s0 /\ cost c0 s0 = Some (ecost e0)) /\
      (forall e, In e visited -> reach next s0 (estate e) /\
         exists c, hash c (estate e) = Some (ehash e) /\ cost c (estate e) = Some (ecost e)) /\
      NoDup (map ehash visited) /\
      match max_visited o with Some m => length visited <= max 1 m | None => True end /\
      (n_best = None <-> track_n_best o = None)
  end.
Proof. exact C03_search_safe_pf. Qed.

(** The search ends if there is a limit on visited states, or if the reachable states have
    finitely many hashes. *)
Theorem C03_search_terminates : forall (S P C : Type) (ltb : P -> P -> bool) hash cost next, strict_weak ltb ->
  forall (o : options) (s0 : S) (c0 : C) ties,
  (exists m, max_visited o = Some m) \/
  (exists U, forall s c h, reach next s0 s -> hash c s = Some h -> In h U) ->
  exists fuel0, forall fuel, fuel0 <= fuel -> search (P := P) ltb hash cost next fuel o ties s0 c0 <> OutOfFuel.
Proof. exact C03_search_terminates_pf. Qed.

(** The limit on visited states is not respected when it is 0: one state is visited. *)
Theorem C03_zero_limit_refuted : forall (S P C : Type) (ltb : P -> P -> bool) hash cost next, strict_weak ltb ->
  forall (o : options) (s0 : S) (c0 : C) fuel ties,
  max_visited o = Some 0 ->
  match search ltb hash cost next fuel o ties s0 c0 with
  | Result _ _ visited _ _ => length visited = 1
  | _ => True
  end.
Proof. exact C03_zero_limit_refuted_pf. Qed.

(** ** C04 *)

(** If everything that was accepted was visited, and every successor of a visited state was
    accepted (its hash is among the seen ones), then the best state is a cheapest reachable one. *)
Theorem C04_exhaustive_optimal : forall (S P C : Type) (ltb : P -> P -> bool) hash cost next, strict_weak ltb ->
  forall (o : options) (s0 : S) (c0 : C) fuel ties best n_best visited exhausted final,
  (forall c s, hash c s = hash c0 s) -> (forall c s, cost c s = cost c0 s) ->
  (forall c s, fst (next c s) = fst (next c0 s)) ->
  (forall s, reach next s0 s -> hash c0 s <> None /\ cost c0 s <> None) ->
  (forall s s' h, reach next s0 s -> reach next s0 s' -> hash c0 s = Some h -> hash c0 s' = Some h -> s = s') ->
  search ltb hash cost next fuel o ties s0 c0 = Result best n_best visited exhausted final ->
  length visited = length (seen final) ->
  (forall e s' h, In e visited -> In s' (fst (next c0 (estate e))) -> hash c0 s' = Some h -> In h (seen final)) ->
  forall s k kb, reach next s0 s -> cost c0 s = Some k -> cost c0 best = Some kb -> ltb k kb = false.
Proof. exact C04_exhaustive_optimal_pf. Qed.

(** If the queue has room for all reachable states and there are no limits, the search ends,
    visits every reachable state and returns a cheapest one. *)
Theorem C04_large_queue_optimal : forall (S P C : Type) (ltb : P -> P -> bool) hash cost next, strict_weak ltb ->
  forall (o : options) (s0 : S) (c0 : C) (U : list nat) ties,
  (forall c s, hash c s = hash c0 s) -> (forall c s, cost c s = cost c0 s) ->
  (forall c s, fst (next c s) = fst (next c0 s)) ->
  (forall s, reach next s0 s -> hash c0 s <> None /\ cost c0 s <> None) ->
  (forall s s' h, reach next s0 s -> reach next s0 s' -> hash c0 s = Some h -> hash c0 s' = Some h -> s = s') ->
  (forall s h, reach next s0 s -> hash c0 s = Some h -> In h U) -> length U <= queue_size o ->
  (forall k, stop o k = false) -> max_visited o = None ->
  exists fuel0, forall fuel, fuel0 <= fuel ->
  exists best n_best visited final,
    search ltb hash cost next fuel o ties s0 c0 = Result best n_best visited true final /\
    (forall s, reach next s0 s -> exists e, In e visited /\ estate e = s) /\
    forall s k kb, reach next s0 s -> cost c0 s = Some k -> cost c0 best = Some kb -> ltb k kb = false.
Proof. exact C04_large_queue_optimal_pf. Qed.

(** ** C05 *)

(** The first of the best states never costs more than the best state, and exactly as much
    when the search ends on an empty queue. *)
Theorem C05_agree : forall (S P C : Type) (ltb : P -> P -> bool) hash cost next, strict_weak ltb ->
  forall (o : options) (s0 : S) (c0 : C) fuel ties best n_best visited exhausted final n,
  search ltb hash cost next fuel o ties s0 c0 = Result best n_best visited exhausted final ->
  track_n_best o = Some n -> 0 < n ->
  exists eb e1 rest, n_best = Some (map estate (e1 :: rest)) /\ In eb visited /\ estate eb = best /\
    ltb (ecost eb) (ecost e1) = false /\ (exhausted = true -> ltb (ecost e1) (ecost eb) = false).
Proof. exact C05_agree_pf. Qed.

(** When the search is cut off by the limit on visited states they may differ: the best state
    is the start, the list has a cheaper state. *)
Theorem C05_cut_off_refuted : exists o best n_best visited final,
  search Nat.ltb (fun _ s => Some s) (fun _ s => Some s) (fun _ s => ([s - 1], tt)) 10 o (fun _ => 0) 5 tt
    = Result best (Some n_best) visited false final /\
  best = 5 /\ n_best = [4] /\ max_visited o = Some 1.
Proof. exact C05_cut_off_refuted_pf. Qed.

(** ** Instances of the hypotheses *)
Lemma nat_strict_weak : strict_weak Nat.ltb.
Proof.
  split; intros.
  - apply Nat.ltb_lt in H. apply Nat.ltb_ge. lia.
  - apply Nat.ltb_ge in H, H0. apply Nat.ltb_ge. lia.
Qed.

Example C01_instance : exists q os,
  do_calls Nat.ltb (pq_new 2 (Some 1) (fun k => k)) [Push 9 1 9; Push 7 2 7; Push 8 3 8; Push 3 1 3; Pop] = Some (q, os) /\
  accepted os = [(1, 9, 9); (2, 7, 7); (3, 8, 8)] /\ popped os = [(2, 7, 7)] /\ length (queue q) <= 2.
Proof.
  match goal with |- exists q os, ?r = _ /\ _ =>
    let v := eval vm_compute in r in match v with Some (?q, ?o) => exists q, o end end.
  split; [vm_compute; reflexivity|]. split; [reflexivity|]. split; [reflexivity|].
  eapply (C01_bounded_and_unique nat nat Nat.ltb nat_strict_weak 2 (Some 1) (fun k => k)
    [Push 9 1 9; Push 7 2 7; Push 8 3 8; Push 3 1 3; Pop]).
  vm_compute; reflexivity.
Qed.
Example C02_instance : exists q os best,
  do_calls Nat.ltb (pq_new 3 (Some 2) (fun k => k)) [Push 9 1 9; Push 7 2 7; Pop; Push 8 3 8; Pop] = Some (q, os) /\
  n_cheapest Nat.ltb 2 (accepted os) best.
Proof.
  destruct (do_calls Nat.ltb (pq_new 3 (Some 2) (fun k => k)) [Push 9 1 9; Push 7 2 7; Pop; Push 8 3 8; Pop])
    as [[q os]|] eqn:E; [|vm_compute in E; discriminate].
  destruct (C02_n_cheapest_accepted nat nat Nat.ltb nat_strict_weak 3 2 (fun k => k) _ _ _ E) as (best & _ & Hb).
  exists q, os, best. split; [reflexivity|exact Hb].
Qed.

(** A graph with the states 0 .. 7: from s to (2s mod 8) and (2s + 1 mod 8); cost 7 - s. *)
Definition ex_next (_ : unit) (s : nat) : list nat * unit := ([(2 * s) mod 8; (2 * s + 1) mod 8], tt).
Definition ex_opts (q : nat) (m : option nat) : options :=
  {| queue_size := q; max_visited := m; track_n_best := Some 2; stop := fun _ => false |}.
Example C03_instance : exists best nb vis ex final,
  search Nat.ltb (fun _ s => Some s) (fun _ s => Some (7 - s)) ex_next 20 (ex_opts 3 None) (fun k => k) 1 tt
   = Result best nb vis ex final /\ best = 7.
Proof.
  match goal with |- exists best nb vis ex fin, ?r = _ /\ _ =>
    let v := eval vm_compute in r in
    match v with Result ?b ?l ?vi ?ex ?f => exists b, l, vi, ex, f end end.
  split; [vm_compute; reflexivity|]. reflexivity.
Qed.

Lemma ex_reach : forall s, reach ex_next 1 s -> s < 8.
Proof.
  intros s H. induction H; [lia|]. cbn [ex_next fst] in H0.
  destruct H0 as [<-|[<-|[]]]; apply Nat.mod_upper_bound; lia.
Qed.
Example C04_instance : exists fuel0, forall fuel, fuel0 <= fuel -> exists best nb vis final,
  search Nat.ltb (fun _ s => Some s) (fun _ s => Some (7 - s)) ex_next fuel (ex_opts 8 None) (fun k => k) 1 tt
   = Result best nb vis true final.
Proof.
  destruct (C04_large_queue_optimal nat nat unit Nat.ltb (fun _ s => Some s) (fun _ s => Some (7 - s)) ex_next
    nat_strict_weak (ex_opts 8 None) 1 tt (seq 0 8) (fun k => k)) as (f & H); auto.
  - intros s Hr; split; discriminate.
  - intros s s' h _ _ E E'. congruence.
  - intros s h Hr E. injection E as <-. apply in_seq. apply ex_reach in Hr. lia.
  - exists f. intros fuel Hf. destruct (H fuel Hf) as (b & nb & v & q & E & _). eauto.
Qed.
Example C04_general_instance : exists best nb vis final,
  search Nat.ltb (fun _ s => Some s) (fun _ s => Some (7 - s)) ex_next 20 (ex_opts 4 None) (fun k => k) 1 tt
   = Result best nb vis true final /\ length vis = length (seen final) /\
  (forall e s' h, In e vis -> In s' (fst (ex_next tt (estate e))) -> Some s' = Some h -> In h (seen final)).
Proof.
  match goal with |- exists best nb vis fin, ?r = _ /\ _ =>
    let v := eval vm_compute in r in
    match v with Result ?b ?l ?vi _ ?f => exists b, l, vi, f end end.
  split; [vm_compute; reflexivity|]. split; [reflexivity|].
  intros e s' h He Hs E. injection E as <-. cbn in He.
  repeat (destruct He as [<-|He]; [cbn in Hs; destruct Hs as [<-|[<-|[]]]; cbn; tauto|]). destruct He.
Qed.
Example C05_instance : exists best nb vis final,
  search Nat.ltb (fun _ s => Some s) (fun _ s => Some (7 - s)) ex_next 20 (ex_opts 2 None) (fun k => k) 1 tt
   = Result best (Some nb) vis true final /\ best = 7 /\ nb = [7; 6].
Proof.
  match goal with |- exists best nb vis fin, ?r = _ /\ _ =>
    let v := eval vm_compute in r in
    match v with Result ?b (Some ?l) ?vi _ ?f => exists b, l, vi, f end end.
  split; [vm_compute; reflexivity|]. split; reflexivity.
Qed.

Print Assumptions C01_refines_bounded_queue.
Print Assumptions C01_bounded_and_unique.
Print Assumptions C02_n_cheapest_accepted.
Print Assumptions C02_n_cheapest_offered.
Print Assumptions C02_large_n_refuted.
Print Assumptions C02_truncate_refuted.
Print Assumptions C03_search_safe.
Print Assumptions C03_search_terminates.
Print Assumptions C03_zero_limit_refuted.
Print Assumptions C04_exhaustive_optimal.
Print Assumptions C04_large_queue_optimal.
Print Assumptions C05_agree.
Print Assumptions C05_cut_off_refuted.
