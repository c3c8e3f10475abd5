(** Properties of multi-threaded Badger (C06 to C08). *)
From Coq Require Import List Bool Arith Lia.
From Verif Require Import PQueueSpec PQueueModel PQueueProofs BadgerSpec BadgerModel BadgerProofs BadgerTerm BadgerMain.
Import ListNotations.

(** ** C06: safety under every schedule *)

(** In every state that any schedule reaches: no unwrap of the queue thread has failed, the
    best circuit so far has been obtained from the input by rewrites, with the cost obtained by
    adding the reported changes, which is not above that of the input; no two pieces of work
    handed to workers have the same hash. *)
Theorem C06_safety : forall (S P D : Type) (ltb : P -> P -> bool), strict_weak ltb ->
  forall (hash : S -> option nat) (rw : S -> list (S * D)) (add_delta : P -> D -> P) (o : options) s0 c0 h0 ties,
  hash s0 = Some h0 ->
  forall s, reachable_from (step ltb hash rw add_delta o) (init o s0 c0 h0 ties) s ->
  q_status S P s <> QPanic /\
  derived rw add_delta s0 c0 (best S P s) (best_cost S P s) /\ ltb c0 (best_cost S P s) = false /\
  NoDup (map ehash (handed S P s)) /\
  (forall w, In w (handed S P s) -> derived rw add_delta s0 c0 (estate w) (ecost w) /\ hash (estate w) = Some (ehash w)).
Proof. exact C06_safety_pf. Qed.

(** If the reported cost changes are exact, the cost kept with the best circuit is its cost; if
    rewrites preserve an equivalence of circuits, the best circuit is equivalent to the input. *)
Theorem C06_cost_and_meaning : forall (S P D : Type) (ltb : P -> P -> bool), strict_weak ltb ->
  forall (hash : S -> option nat) (rw : S -> list (S * D)) (add_delta : P -> D -> P) (cost : S -> P) (equiv : S -> S -> Prop) (o : options) s0 h0 ties,
  hash s0 = Some h0 ->
  (forall s s' d, In (s', d) (rw s) -> cost s' = add_delta (cost s) d) ->
  (forall s, equiv s s) -> (forall a b c, equiv a b -> equiv b c -> equiv a c) -> (forall s s' d, In (s', d) (rw s) -> equiv s s') ->
  forall s, reachable_from (step ltb hash rw add_delta o) (init o s0 (cost s0) h0 ties) s ->
  best_cost S P s = cost (best S P s) /\ ltb (cost s0) (cost (best S P s)) = false /\ equiv s0 (best S P s).
Proof. exact C06_cost_and_meaning_pf. Qed.

(** When badger returns, its result is at most as dear as anything that entered the queue:
    no improvement reported to the log is lost, whatever ends the search. *)
Theorem C06_best_of_enqueued : forall (S P D : Type) (ltb : P -> P -> bool), strict_weak ltb ->
  forall (hash : S -> option nat) (rw : S -> list (S * D)) (add_delta : P -> D -> P) (o : options) s0 c0 h0 ties,
  hash s0 = Some h0 ->
  forall s, reachable_from (step ltb hash rw add_delta o) (init o s0 c0 h0 ties) s -> main S P s = MDone ->
  forall w, In w (enqueued S P s) -> ltb (ecost w) (best_cost S P s) = false.
Proof. exact C06_best_of_enqueued_pf. Qed.

(** If badger ends after the search space was exhausted (the queue is empty and every
    worker waits), and the queue never had to drop anything, the result is optimal among all
    circuits derivable through valid circuits. *)
Theorem C06_exhaustive_optimal : forall (S P D : Type) (ltb : P -> P -> bool), strict_weak ltb ->
  forall (hash : S -> option nat) (rw : S -> list (S * D)) (add_delta : P -> D -> P) (cost : S -> P) (o : options) s0 h0 ties (U : list nat),
  hash s0 = Some h0 ->
  (forall s s' d, In (s', d) (rw s) -> cost s' = add_delta (cost s) d) ->
  (forall s c h, derived rw add_delta s0 (cost s0) s c -> hash s = Some h -> In h U) -> length U < queue_size o ->
  (forall s c s' c' h, derived rw add_delta s0 (cost s0) s c -> derived rw add_delta s0 (cost s0) s' c' -> hash s = Some h -> hash s' = Some h -> s = s') ->
  forall s, reachable_from (step ltb hash rw add_delta o) (init o s0 (cost s0) h0 ties) s ->
  q_status S P s = QRun -> push S P s = [] -> queue (q_pq S P s) = [] -> (forall w, In w (workers S P s) -> w = WIdle S P) ->
  forall s', reachable_from (step ltb hash rw add_delta o) s s' -> main S P s' = MDone ->
  forall x, derived_valid rw (fun y => hash y <> None) s0 x -> ltb (cost x) (cost (best S P s')) = false.
Proof. exact C06_exhaustive_optimal_pf. Qed.

(** ** C07: termination *)

(** The property is false: without timeouts and limit on circuits the main thread never leaves
    its loop, in any execution, for any rewriter (also when the search space is finite). *)
Theorem C07_never_returns_refuted : forall (S P D : Type) (ltb : P -> P -> bool), strict_weak ltb ->
  forall (hash : S -> option nat) (rw : S -> list (S * D)) (add_delta : P -> D -> P) (o : options) s0 c0 h0 ties,
  hash s0 = Some h0 -> timeouts o = false -> max_circuit_count o = None ->
  forall s, reachable_from (step ltb hash rw add_delta o) (init o s0 c0 h0 ties) s -> main S P s = MLoop.
Proof. exact C07_never_returns_refuted_pf. Qed.
(** With finitely many hashes it deadlocks: all executions are finite, there is a maximal one,
    and every maximal one ends in the loop. *)
Theorem C07_deadlock_refuted : forall (S P D : Type) (ltb : P -> P -> bool), strict_weak ltb ->
  forall (hash : S -> option nat) (rw : S -> list (S * D)) (add_delta : P -> D -> P) (o : options) s0 c0 h0 ties (U : list nat),
  hash s0 = Some h0 -> timeouts o = false -> max_circuit_count o = None ->
  (forall s c h, derived rw add_delta s0 c0 s c -> hash s = Some h -> In h U) ->
  terminating (step ltb hash rw add_delta o) (init o s0 c0 h0 ties) /\
  exists s, reachable_from (step ltb hash rw add_delta o) (init o s0 c0 h0 ties) s /\ stuck (step ltb hash rw add_delta o) s /\ main S P s = MLoop.
Proof. exact C07_deadlock_refuted_pf. Qed.
(** What does hold: with a timeout and finitely many hashes every execution is finite and a
    maximal one ends with badger returning. Missing: no timeout. *)
Theorem C07_with_timeout_partial : forall (S P D : Type) (ltb : P -> P -> bool), strict_weak ltb ->
  forall (hash : S -> option nat) (rw : S -> list (S * D)) (add_delta : P -> D -> P) (o : options) s0 c0 h0 ties (U : list nat),
  hash s0 = Some h0 -> timeouts o = true ->
  (forall s c h, derived rw add_delta s0 c0 s c -> hash s = Some h -> In h U) ->
  terminating (step ltb hash rw add_delta o) (init o s0 c0 h0 ties) /\
  forall s, reachable_from (step ltb hash rw add_delta o) (init o s0 c0 h0 ties) s -> stuck (step ltb hash rw add_delta o) s -> main S P s = MDone.
Proof. exact C07_with_timeout_partial_pf. Qed.
(** Without a bound on the search space: with a timeout badger can always still return, and once
    the queue thread has ended every execution is finite and ends with badger returning. *)
Theorem C07_can_return_partial : forall (S P D : Type) (ltb : P -> P -> bool), strict_weak ltb ->
  forall (hash : S -> option nat) (rw : S -> list (S * D)) (add_delta : P -> D -> P) (o : options) s0 c0 h0 ties,
  hash s0 = Some h0 ->
  forall s, reachable_from (step ltb hash rw add_delta o) (init o s0 c0 h0 ties) s ->
  (timeouts o = true -> exists s', reachable_from (step ltb hash rw add_delta o) s s' /\ main S P s' = MDone) /\
  (q_status S P s <> QRun -> terminating (step ltb hash rw add_delta o) s /\
     forall s', reachable_from (step ltb hash rw add_delta o) s s' -> stuck (step ltb hash rw add_delta o) s' -> main S P s' = MDone).
Proof. exact C07_can_return_partial_pf. Qed.
(** It blocks only when the search space is exhausted: a state without successors in which badger
    has not returned has no timeout, nothing in flight, every worker waiting and (if there
    is a worker) an empty queue. *)
Theorem C07_blocks_only_when_exhausted : forall (S P D : Type) (ltb : P -> P -> bool), strict_weak ltb ->
  forall (hash : S -> option nat) (rw : S -> list (S * D)) (add_delta : P -> D -> P) (o : options) s0 c0 h0 ties,
  hash s0 = Some h0 ->
  forall s, reachable_from (step ltb hash rw add_delta o) (init o s0 c0 h0 ties) s -> stuck (step ltb hash rw add_delta o) s -> main S P s <> MDone ->
  timeouts o = false /\ main S P s = MLoop /\ q_status S P s = QRun /\ push S P s = [] /\ log S P s = [] /\
  (forall w, In w (workers S P s) -> w = WIdle S P) /\ (0 < n_threads o -> queue (q_pq S P s) = []).
Proof. exact C07_blocks_only_when_exhausted_pf. Qed.

(** ** C08: the shared bound *)

(** The property is false: the bound is never set, in any execution, also when the queue is
    full. *)
Theorem C08_never_set_refuted : forall (S P D : Type) (ltb : P -> P -> bool), strict_weak ltb ->
  forall (hash : S -> option nat) (rw : S -> list (S * D)) (add_delta : P -> D -> P) (o : options) s0 c0 h0 ties,
  hash s0 = Some h0 ->
  forall s, reachable_from (step ltb hash rw add_delta o) (init o s0 c0 h0 ties) s -> shared_max S P s = None.
Proof. exact C08_never_set_refuted_pf. Qed.
Theorem C08_full_and_unset_refuted : exists (s : st nat nat) o,
  reachable_from (step Nat.ltb (fun n => Some n) (fun n => [(n + 1, 1); (n + 2, 2)]) Nat.add o) (init o 0 0 0 (fun _ => 0)) s /\
  length (queue (q_pq nat nat s)) = max_size (q_pq nat nat s) /\ 0 < max_size (q_pq nat nat s) /\ shared_max nat nat s = None /\
  max_cost Nat.ltb (q_pq nat nat s) = Some 1.
Proof. exact C08_full_and_unset_refuted_pf. Qed.
(** Hence nothing is pruned: a worker sends back every valid rewrite of its circuit. *)
Theorem C08_no_discard_partial : forall (S P D : Type) (ltb : P -> P -> bool), strict_weak ltb ->
  forall (hash : S -> option nat) (rw : S -> list (S * D)) (add_delta : P -> D -> P) (o : options) s0 c0 h0 ties,
  hash s0 = Some h0 ->
  forall s s' i w, reachable_from (step ltb hash rw add_delta o) (init o s0 c0 h0 ties) s ->
  nth_error (workers S P s) i = Some (WBusy S P w) -> step ltb hash rw add_delta o (WRewrite i) s = Some s' ->
  exists b, In (WReady S P b) (workers S P s') /\
  (forall x d h, In (x, d) (rw (estate w)) -> hash x = Some h -> In (h, add_delta (ecost w) d, x) b) /\
  (forall e, In e b -> exists d, In (estate e, d) (rw (estate w)) /\ hash (estate e) = Some (ehash e) /\ ecost e = add_delta (ecost w) d).
Proof. exact C08_no_discard_partial_pf. Qed.

(** ** Instances *)

(** A search space of four circuits, 3 rewriting to 2 and 1, and so on down to 0; the cost is the number. *)
Definition ex_rw (n : nat) : list (nat * nat) := match n with 0 => [] | 1 => [(0, 1)] | Datatypes.S (Datatypes.S m) => [(Datatypes.S m, 1); (m, 2)] end.
Definition ex_o (t : bool) (k : nat) : options := {| queue_size := 10; max_circuit_count := None; timeouts := t; n_threads := k |}.
Definition ex_hash (n : nat) : option nat := Some n.
Definition ex_init (t : bool) (k : nat) : st nat nat := init (ex_o t k) 3 3 3 (fun _ => 0).
Definition ex_step (t : bool) (k : nat) : action -> st nat nat -> option (st nat nat) := step Nat.ltb ex_hash ex_rw Nat.sub (ex_o t k).
Lemma ex_sw : strict_weak Nat.ltb.
Proof. split; intros *; rewrite ?Nat.ltb_lt, ?Nat.ltb_ge; lia. Qed.
Lemma ex_cost : forall s s' d, In (s', d) (ex_rw s) -> s' = Nat.sub s d.
Proof. intros [|[|m]] s' d H; simpl in H; [destruct H|destruct H as [H|[]]; injection H as <- <-; reflexivity|]. destruct H as [H|[H|[]]]; injection H as <- <-; lia. Qed.
Lemma ex_finite : forall s c h, derived ex_rw Nat.sub 3 3 s c -> ex_hash s = Some h -> In h [3; 2; 1; 0].
Proof.
  assert (G : forall s c, derived ex_rw Nat.sub 3 3 s c -> s <= 3).
  { intros s c K. induction K as [|s c s' d K IH H]; [lia|]. apply ex_cost in H. lia. }
  intros s c h K E. injection E as <-. apply G in K. simpl. lia.
Qed.
Lemma ex_inj : forall s c s' c' h, derived ex_rw Nat.sub 3 3 s c -> derived ex_rw Nat.sub 3 3 s' c' -> ex_hash s = Some h -> ex_hash s' = Some h -> s = s'.
Proof. unfold ex_hash. congruence. Qed.

(** Two workers search the whole space; then the timeout ends the search with circuit 0. *)
Definition ex_search : list action :=
  [QRecv; QGive 0; WRewrite 0; WSend 0; QRecv; QGive 1; QGive 0; WRewrite 0; WRewrite 1; WSend 1; MLog; WSend 0; QRecv; MLog; QRecv; QGive 0; WRewrite 0; WSend 0].
Definition ex_finish : list action :=
  [MTimeout; QRecv; MLog; MLog; MLog; MLog; MLog; MLog; WStop 0; WStop 1; MLog; MDisconnect; MJoined].
Example ex_searched : exists s, exec (ex_step true 2) ex_search (ex_init true 2) = Some s /\
  q_status nat nat s = QRun /\ push nat nat s = [] /\ queue (q_pq nat nat s) = [] /\ (forall w, In w (workers nat nat s) -> w = WIdle nat nat) /\
  map ehash (handed nat nat s) = [3; 1; 2; 0].
Proof.
  destruct (exec (ex_step true 2) ex_search (ex_init true 2)) as [s|] eqn:E; [|vm_compute in E; discriminate]. exists s. split; [reflexivity|].
  vm_compute in E. injection E as <-. cbn. repeat split. intros w [<-|[<-|[]]]; reflexivity.
Qed.
Example ex_returned : exists s, exec (ex_step true 2) (ex_search ++ ex_finish) (ex_init true 2) = Some s /\ main nat nat s = MDone /\ best nat nat s = 0.
Proof.
  destruct (exec (ex_step true 2) (ex_search ++ ex_finish) (ex_init true 2)) as [s|] eqn:E; [|vm_compute in E; discriminate]. exists s. split; [reflexivity|].
  vm_compute in E. injection E as <-. split; reflexivity.
Qed.
Example ex_optimal : forall s s', exec (ex_step true 2) ex_search (ex_init true 2) = Some s -> exec (ex_step true 2) ex_finish s = Some s' ->
  forall x, derived_valid ex_rw (fun y => ex_hash y <> None) 3 x -> Nat.ltb x (best nat nat s') = false.
Proof.
  intros s s' E E' x Hx. destruct ex_searched as (s1 & E1 & A1 & A2 & A3 & A4 & _). assert (s1 = s) by congruence. subst s1.
  destruct ex_returned as (s2 & E2 & B1 & _).
  assert (s2 = s') by (unfold ex_step in *; rewrite exec_app, E, E' in E2; congruence). subst s2.
  apply (C06_exhaustive_optimal nat nat nat Nat.ltb ex_sw ex_hash ex_rw Nat.sub (fun n => n) (ex_o true 2) 3 3 (fun _ => 0) [3; 2; 1; 0]) with (s := s);
    try assumption; try reflexivity; [exact ex_cost|exact ex_finite|simpl; lia|exact ex_inj|exists ex_search; exact E|exists ex_finish; exact E'].
Qed.
Example ex_deadlock : terminating (ex_step false 2) (ex_init false 2) /\
  exists s, reachable_from (ex_step false 2) (ex_init false 2) s /\ stuck (ex_step false 2) s /\ main nat nat s = MLoop.
Proof. apply (C07_deadlock_refuted nat nat nat Nat.ltb ex_sw) with (U := [3; 2; 1; 0]); try reflexivity. exact ex_finite. Qed.
Example ex_timeout : terminating (ex_step true 2) (ex_init true 2) /\
  forall s, reachable_from (ex_step true 2) (ex_init true 2) s -> stuck (ex_step true 2) s -> main nat nat s = MDone.
Proof. apply (C07_with_timeout_partial nat nat nat Nat.ltb ex_sw) with (U := [3; 2; 1; 0]); try reflexivity. exact ex_finite. Qed.
Example ex_worker : exists s s', reachable_from (ex_step true 2) (ex_init true 2) s /\ nth_error (workers nat nat s) 0 = Some (WBusy nat nat (3, 3, 3)) /\
  ex_step true 2 (WRewrite 0) s = Some s'.
Proof.
  destruct (exec (ex_step true 2) [QRecv; QGive 0] (ex_init true 2)) as [s|] eqn:E; [|vm_compute in E; discriminate].
  destruct (ex_step true 2 (WRewrite 0) s) as [s'|] eqn:E'; [|vm_compute in E; injection E as <-; vm_compute in E'; discriminate].
  exists s, s'. split; [exists [QRecv; QGive 0]; exact E|]. split; [|exact E']. vm_compute in E. injection E as <-. reflexivity.
Qed.

Print Assumptions C06_safety.
Print Assumptions C06_cost_and_meaning.
Print Assumptions C06_best_of_enqueued.
Print Assumptions C06_exhaustive_optimal.
Print Assumptions C07_never_returns_refuted.
Print Assumptions C07_deadlock_refuted.
Print Assumptions C07_with_timeout_partial.
Print Assumptions C07_can_return_partial.
Print Assumptions C07_blocks_only_when_exhausted.
Print Assumptions C08_never_set_refuted.
Print Assumptions C08_full_and_unset_refuted.
Print Assumptions C08_no_discard_partial.
