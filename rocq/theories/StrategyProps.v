(** Properties C09 - C13, C46, C47: costs, rewriting strategies, equivalence classes and rule
    tables. *)
From Coq Require Import ZArith List Bool Lia Permutation Sorted.
From Verif Require Import PQueueSpec CostSpec CostModel CostProofs StrategySpec StrategyModel StrategyProofs EccModel EccProofs StrategyMain.
Import ListNotations.
Open Scope Z_scope.

(** ** C09 *)

(** The order on costs is the lexicographic one, total, and agrees with equality; it is a
    strict weak order, which is what the queue (C01) and the search (C04) assume. *)
Theorem C09_total_order : forall a b : list Z, length a = length b ->
  (cost_ltb a b = true <-> lex a b) /\ (cost_leb a b = true <-> lex a b \/ a = b) /\
  (lex a b \/ a = b \/ lex b a) /\ ~ (lex a b /\ lex b a) /\ strict_weak cost_ltb.
Proof. exact C09_total_order_pf. Qed.

(** Addition is associative and commutative, also when it wraps; without overflow it is
    componentwise and strictly monotone. *)
Theorem C09_addition : forall a b c : list Z,
  cost_add a (cost_add b c) = cost_add (cost_add a b) c /\ cost_add a b = cost_add b a /\
  (length a = length b -> length c = length a ->
   (forall i, (i < length a)%nat -> 0 <= nth i a 0 + nth i c 0 < 2 ^ 64) ->
   (forall i, (i < length b)%nat -> 0 <= nth i b 0 + nth i c 0 < 2 ^ 64) ->
   (forall i, (i < length a)%nat -> nth i (cost_add a c) 0 = nth i a 0 + nth i c 0) /\
   (lex a b -> lex (cost_add a c) (cost_add b c))).
Proof. exact C09_addition_pf. Qed.

(** The sum of a list of costs is the componentwise sum. *)
Theorem C09_sum : forall N (l : list (list Z)), (forall v, In v l -> length v = N) ->
  (forall v i, In v l -> (i < N)%nat -> 0 <= component i v < 2 ^ 64) ->
  (forall i, (i < N)%nat -> zsum (map (component i) l) < 2 ^ 64) ->
  is_total N l (cost_sum N l).
Proof. exact C09_sum_pf. Qed.

(** Replacing the operations [pat] of a circuit by [tgt]: the delta computed from pattern and
    target, applied to the old cost, is exactly the cost of the new circuit. *)
Theorem C09_delta_exact : forall N (rest pat tgt circ : list (list Z)) tot_p tot_t tot_c tot_c',
  Permutation circ (rest ++ pat) ->
  (forall v i, In v (rest ++ pat ++ tgt) -> (i < N)%nat -> 0 <= component i v) ->
  (forall i, (i < N)%nat -> zsum (map (component i) (rest ++ pat ++ tgt)) < 2 ^ 63) ->
  is_total N pat tot_p -> is_total N tgt tot_t -> is_total N circ tot_c -> is_total N (rest ++ tgt) tot_c' ->
  add_delta tot_c (sub_cost tot_t tot_p) = tot_c'.
Proof. exact C09_delta_exact_pf. Qed.

(** Without the bound this is false: a difference does not fit in an isize. *)
Theorem C09_delta_wraps_refuted : exists c p t : list Z,
  within 0 (2 ^ 64) c /\ within 0 (2 ^ 64) p /\ within 0 (2 ^ 64) t /\ c = p /\
  add_delta c (sub_cost t p) <> t.
Proof. exact C09_delta_wraps_refuted_pf. Qed.

(** ** C10 *)

(** n parts of size div_cost a n cover a, and no smaller part does, in every component that is
    at least 1. *)
Theorem C10_div_covers_least_partial : forall (a : list Z) n i, 0 < n -> (i < length a)%nat -> 0 <= nth i a 0 ->
  nth i a 0 <= n * nth i (div_cost a n) 0 /\
  (1 <= nth i a 0 -> forall k, nth i a 0 <= n * k -> nth i (div_cost a n) 0 <= k).
Proof. exact C10_div_covers_least_partial_pf. Qed.

(** A zero component is divided into parts of size 1, not 0. *)
Theorem C10_zero_refuted : exists (a : list Z) n, 0 < n /\ within 0 (2 ^ 64) a /\
  exists k, nth 0 a 0 <= n * k /\ k < nth 0 (div_cost a n) 0.
Proof. exact C10_zero_refuted_pf. Qed.

(** ** C11 *)

(** The greedy strategy never fails; it applies one after the other rewrites that each remove
    nodes, on pairwise disjoint node sets, best first; each improving rewrite not applied
    overlaps an applied one at least as good; the reported delta is the sum of theirs and is not
    positive; it is the true change in the number of operations when every matched node counts
    as one operation. *)
Theorem C11_greedy : forall (op : Type) fresh (num_ops : op -> Z) (c : circ op) (rws : list (rewrite op)),
  allocator fresh -> NoDup (ids c) -> (forall rw, In rw rws -> fits c rw) ->
  let delta rw := weigh num_ops (rw_repl rw) - Z.of_nat (length (rw_nodes rw)) in
  exists c' d applied, greedy_apply op fresh num_ops rws c = Some (c', d) /\
    steps c applied c' /\ d = zsum (map delta applied) /\ d <= 0 /\ (d = 0 -> applied = []) /\
    (forall r, In r applied -> In r rws /\ delta r < 0) /\
    pairwise_disjoint (map rw_nodes applied) /\
    StronglySorted (fun a b => delta a <= delta b) applied /\
    (forall r, In r rws -> delta r < 0 -> In r applied \/
       exists a, In a applied /\ overlap (rw_nodes r) (rw_nodes a) /\ delta a <= delta r) /\
    ((forall r o n, In r rws -> In n (rw_nodes r) -> In (n, o) c -> num_ops o = 1) ->
       weigh num_ops (ops c') = weigh num_ops (ops c) + d).
Proof. exact C11_greedy_pf. Qed.

(** In general the reported delta is not the change in the number of operations: matched nodes
    are counted one each, whether num_operations counts them or not. *)
Theorem C11_delta_is_op_count_refuted :
  exists (op : Type) fresh (num_ops : op -> Z) (c : circ op) (rw : rewrite op) c' d,
    allocator fresh /\ NoDup (ids c) /\ fits c rw /\ (forall o, 0 <= num_ops o <= 1) /\
    greedy_apply op fresh num_ops [rw] c = Some (c', d) /\
    d < 0 /\ weigh num_ops (ops c') = weigh num_ops (ops c).
Proof. exact C11_delta_is_op_count_refuted_pf. Qed.

(** ** C12 *)

(** The exhaustive greedy strategy yields one circuit per accepted rewrite. The i-th starts with
    the i-th accepted rewrite in order of cost delta, goes on with later ones on pairwise
    disjoint invalidation sets, skips only rewrites that clash with an applied one at least as
    good, and reports the exact cost change, which is the sum of their deltas. *)
Theorem C12_exhaustive_greedy : forall (op : Type) fresh N (op_cost : op -> list Z) thr (c : circ op) (rws : list (rewrite op)),
  allocator fresh -> (forall o, length (op_cost o) = N) -> (forall o i, 0 <= component i (op_cost o)) ->
  NoDup (ids c) -> (forall rw, In rw rws -> fits c rw) ->
  (forall i, (i < N)%nat -> weigh (fun o => component i (op_cost o)) (ops c)
     + zsum (map (fun rw => weigh (fun o => component i (op_cost o)) (rw_repl rw)) rws) < 2 ^ 63) ->
  exists acc results,
    Permutation (map fst acc)
      (filter (fun rw => match get_ops op (rw_nodes rw) c with
                         | Some os => thr (cost_sum N (map op_cost os)) (cost_sum N (map op_cost (rw_repl rw)))
                         | None => false end) rws) /\
    StronglySorted (fun x y => cost_leb (snd x) (snd y) = true) acc /\
    exhaustive_greedy op fresh N op_cost thr rws c = Some results /\ length results = length acc /\
    forall i c' d count, nth_error results i = Some (c', d, count) ->
      exists applied, applied <> [] /\ hd_error (map fst applied) = hd_error (map fst (skipn i acc)) /\ incl applied (skipn i acc) /\
        steps c (map fst applied) c' /\ count = Z.of_nat (length applied) mod 2 ^ 16 /\
        pairwise_disjoint (map (fun e => rw_nodes (fst e) ++ rw_extra (fst e)) applied) /\
        StronglySorted (fun x y => cost_leb (snd x) (snd y) = true) applied /\
        (forall e, In e (skipn i acc) -> In e applied \/ exists a, In a applied /\
           overlap (rw_nodes (fst e) ++ rw_extra (fst e)) (rw_nodes (fst a) ++ rw_extra (fst a)) /\
           cost_leb (snd a) (snd e) = true) /\
        length d = N /\
        forall k, (k < N)%nat ->
          component k d = zsum (map (fun e => component k (snd e)) applied) /\
          component k d = weigh (fun o => component k (op_cost o)) (ops c') - weigh (fun o => component k (op_cost o)) (ops c).
Proof. exact C12_exhaustive_greedy_pf. Qed.

(** With the default threshold no applied rewrite increases the leading cost component. *)
Theorem C12_default_threshold : forall pat tgt : list Z, length tgt = length pat -> (0 < length pat)%nat ->
  within 0 (2 ^ 63) pat -> within 0 (2 ^ 63) tgt ->
  (default_threshold pat tgt = true <-> component 0 tgt <= component 0 pat).
Proof. exact C12_default_threshold_pf. Qed.

(** The threshold strategy yields one circuit per accepted rewrite, in the given order, with the
    exact cost change. *)
Theorem C12_exhaustive_threshold : forall (op : Type) fresh N (op_cost : op -> list Z) thr (c : circ op) (rws : list (rewrite op)),
  allocator fresh -> (forall o, length (op_cost o) = N) -> (forall o i, 0 <= component i (op_cost o)) ->
  NoDup (ids c) -> (forall rw, In rw rws -> fits c rw) ->
  (forall i, (i < N)%nat -> weigh (fun o => component i (op_cost o)) (ops c)
     + zsum (map (fun rw => weigh (fun o => component i (op_cost o)) (rw_repl rw)) rws) < 2 ^ 63) ->
  exists results, exhaustive_threshold op fresh N op_cost thr rws c = Some results /\
    Forall2 (fun rw r => step c rw (fst r) /\ length (snd r) = N /\
       forall k, (k < N)%nat -> component k (snd r) =
         weigh (fun o => component k (op_cost o)) (ops (fst r)) - weigh (fun o => component k (op_cost o)) (ops c))
      (filter (fun rw => match get_ops op (rw_nodes rw) c with
                         | Some os => thr (cost_sum N (map op_cost os)) (cost_sum N (map op_cost (rw_repl rw)))
                         | None => false end) rws) results.
Proof. exact C12_exhaustive_threshold_pf. Qed.

(** ** C13 *)

(** [from_circuits] fails exactly on the empty list; otherwise the class holds exactly the given
    circuits and its representative has the fewest operations. *)
Theorem C13_representative_minimal : forall (circ : Type) (num_operations : circ -> nat) (l : list circ),
  match from_circuits circ num_operations l with
  | None => l = []
  | Some e => l <> [] /\ Permutation (rep_circ circ e :: other_circs circ e) l /\
              forall c, In c l -> (num_operations (rep_circ circ e) <= num_operations c)%nat
  end.
Proof. exact C13_representative_minimal_pf. Qed.

(** ** C46 *)

(** Building the rule table never indexes out of range, and each row of the table is a circuit
    of some class that forms a valid pattern: if it is the representative its targets are the
    other circuits, else the representative; only targets that leave unused every wire removed
    from the pattern are kept. Every circuit with a valid pattern has a row. *)
Theorem C46_rules_within_class : forall (circ pat : Type) (pattern_of : circ -> option pat) (empty_wires : circ -> list nat)
  (es : list (eqclass circ)),
  exists w, from_eccs circ pat pattern_of empty_wires es = Some w /\
  (forall i row, nth_error (rows circ pat w) i = Some row ->
     exists e c cand ts, In e es /\ pattern_of c = Some (fst (fst row)) /\ snd (fst row) = empty_wires c /\
       ((c = rep_circ circ e /\ cand = other_circs circ e) \/
        (In c (other_circs circ e) /\ cand = [rep_circ circ e])) /\
       get_targets circ pat w i = Some ts /\
       (forall t, In t ts <-> In t cand /\ incl (empty_wires c) (empty_wires t))) /\
  (forall e c cand p, In e es -> pattern_of c = Some p ->
     (c = rep_circ circ e /\ cand = other_circs circ e) \/ (In c (other_circs circ e) /\ cand = [rep_circ circ e]) ->
     exists i r ts, nth_error (rows circ pat w) i = Some (p, empty_wires c, r) /\ get_targets circ pat w i = Some ts /\
       forall t, In t ts <-> In t cand /\ incl (empty_wires c) (empty_wires t)).
Proof. exact C46_rules_within_class_pf. Qed.

(** So if the circuits of each class are equivalent, so are the two sides of every rule. *)
Theorem C46_rules_sound : forall (circ pat : Type) (pattern_of : circ -> option pat) (empty_wires : circ -> list nat)
  (equiv : circ -> circ -> Prop) (es : list (eqclass circ)) w,
  (forall e a b, In e es -> In a (rep_circ circ e :: other_circs circ e) -> In b (rep_circ circ e :: other_circs circ e) -> equiv a b) ->
  from_eccs circ pat pattern_of empty_wires es = Some w ->
  forall i p ew r ts t, nth_error (rows circ pat w) i = Some (p, ew, r) -> get_targets circ pat w i = Some ts -> In t ts ->
    exists c, pattern_of c = Some p /\ equiv c t.
Proof. exact C46_rules_sound_pf. Qed.

(** ** C47 *)

(** The threshold with gamma = 1 accepts exactly the strictly cheaper targets; with the default
    gamma = 1.0001 and a pattern that costs between 1 and 10000, those at most as expensive. *)
Theorem C47_gamma_partial : forall pattern target : nat,
  (gamma_threshold 1 1 pattern target = true <-> (target < pattern)%nat) /\
  (1 <= Z.of_nat pattern <= 10000 -> forall num den, Z.of_nat num = 10001 -> Z.of_nat den = 10000 ->
     (gamma_threshold num den pattern target = true <-> (target <= pattern)%nat)).
Proof. exact C47_gamma_partial_pf. Qed.

(** A pattern of cost 0 is never rewritten, not even to a target of cost 0, whatever gamma. *)
Theorem C47_zero_cost_refuted : forall num den, gamma_threshold num den 0 0 = false.
Proof. exact C47_zero_cost_refuted_pf. Qed.

(** ** Instances *)

Definition number_from (used : list nat) (n : nat) : list nat := seq (S (list_max used)) n.
Lemma number_from_ok : allocator number_from.
Proof.
  intros used n. unfold number_from. split; [apply seq_length|]. split; [apply seq_NoDup|]. intros x Hx Hu. apply in_seq in Hx.
  pose proof (proj1 (list_max_le used (list_max used)) (le_n _)) as F. rewrite Forall_forall in F. specialize (F x Hu). lia.
Qed.

(** Two vectors that differ in the second component; sums that do not overflow. *)
Example C09_order_instance : lex [3; 1; 9] [3; 2; 0] /\ lex (cost_add [3; 1; 9] [1; 1; 1]) (cost_add [3; 2; 0] [1; 1; 1]).
Proof. split; (split; [reflexivity|]); exists 1%nat; vm_compute; repeat split; auto; intros [|[|i]] H; auto; inversion H; inversion H1. Qed.
Example C09_delta_instance : add_delta [5; 7] (sub_cost [1; 4] [3; 2]) = [3; 9].
Proof. reflexivity. Qed.
Example C10_instance : div_cost [7; 8; 1] 4 = [2; 2; 1].
Proof. reflexivity. Qed.

(** Five operations of types 0 (say H) and 1 (CX); three improving rewrites, two of them
    overlapping, and one that does not improve. *)
Definition five : circ nat := [(0, 0); (1, 0); (2, 1); (3, 1); (4, 0)]%nat.
Definition cands : list (rewrite nat) :=
  [ {| rw_nodes := [4]%nat; rw_extra := []; rw_repl := [1]%nat |};
    {| rw_nodes := [1; 2]%nat; rw_extra := [0]%nat; rw_repl := [1]%nat |};
    {| rw_nodes := [0; 1]%nat; rw_extra := [2]%nat; rw_repl := [] |};
    {| rw_nodes := [2; 3]%nat; rw_extra := []; rw_repl := [] |} ].
Lemma five_ok : NoDup (ids five) /\ forall rw, In rw cands -> fits five rw.
Proof.
  split; [repeat constructor; simpl; intuition discriminate|].
  intros rw [<-|[<-|[<-|[<-|[]]]]]; (split; [repeat constructor; simpl; intuition discriminate|]); intros x Hx; simpl in *; intuition subst; auto.
Qed.
Example C11_instance : greedy_apply nat number_from (fun _ => 1) cands five = Some ([(4, 0)]%nat, -4).
Proof. reflexivity. Qed.
Definition two_costs (o : nat) : list Z := match o with 0%nat => [0; 1] | _ => [1; 1] end.
Example C12_greedy_instance :
  exhaustive_greedy nat number_from 2 two_costs default_threshold cands five
  = Some [ ([(0, 0); (1, 0); (4, 0)]%nat, [-2; -2], 1);
           ([(2, 1); (3, 1); (4, 0)]%nat, [0; -2], 1);
           ([(0, 0); (3, 1); (4, 0); (5, 1)]%nat, [0; -1], 1) ].
Proof. reflexivity. Qed.
Example C12_threshold_instance :
  exhaustive_threshold nat number_from 2 two_costs default_threshold cands five
  = Some [ ([(0, 0); (3, 1); (4, 0); (5, 1)]%nat, [0; -1]); ([(2, 1); (3, 1); (4, 0)]%nat, [0; -2]);
           ([(0, 0); (1, 0); (4, 0)]%nat, [-2; -2]) ].
Proof. reflexivity. Qed.
Example C12_hypotheses_met : (forall o, length (two_costs o) = 2%nat) /\ (forall o i, 0 <= component i (two_costs o)) /\
  forall i, (i < 2)%nat -> weigh (fun o => component i (two_costs o)) (ops five)
     + zsum (map (fun rw => weigh (fun o => component i (two_costs o)) (rw_repl rw)) cands) < 2 ^ 63.
Proof.
  split; [intros [|o]; reflexivity|]. split.
  - intros [|o] [|[|[|i]]]; unfold component; simpl; lia.
  - intros [|[|i]] H; [reflexivity|reflexivity|lia].
Qed.
Example C13_instance : from_circuits nat (fun c => c mod 10)%nat [25; 13; 42; 32; 99]%nat
  = Some {| rep_circ := 42%nat; other_circs := [25; 13; 99; 32]%nat |}.
Proof. reflexivity. Qed.
(** Two classes; circuit 21 has no valid pattern, circuit 12 leaves wires 0 and 1 empty. *)
Example C46_instance :
  let w := from_eccs nat nat (fun c => if Nat.eqb c 21 then None else Some c) (fun c => if Nat.eqb c 12 then [0; 1]%nat else [1]%nat)
    [ {| rep_circ := 10; other_circs := [11; 12] |}; {| rep_circ := 20; other_circs := [21; 22] |} ]%nat in
  match w with
  | Some w => map (get_targets nat nat w) (seq 0 5) =
      [Some [11; 12]%nat; Some [10]%nat; Some []; Some [21; 22]%nat; Some [20]%nat]
  | None => False
  end.
Proof. reflexivity. Qed.
Example C47_instance : gamma_threshold 3 2 4 5 = true /\ gamma_threshold 3 2 4 6 = false.
Proof. split; reflexivity. Qed.

Print Assumptions C09_total_order.
Print Assumptions C09_addition.
Print Assumptions C09_sum.
Print Assumptions C09_delta_exact.
Print Assumptions C09_delta_wraps_refuted.
Print Assumptions C10_div_covers_least_partial.
Print Assumptions C10_zero_refuted.
Print Assumptions C11_greedy.
Print Assumptions C11_delta_is_op_count_refuted.
Print Assumptions C12_exhaustive_greedy.
Print Assumptions C12_default_threshold.
Print Assumptions C12_exhaustive_threshold.
Print Assumptions C13_representative_minimal.
Print Assumptions C46_rules_within_class.
Print Assumptions C46_rules_sound.
Print Assumptions C47_gamma_partial.
Print Assumptions C47_zero_cost_refuted.
