(** Proofs of the properties C09 - C13, C46, C47: costs, rewriting strategies, equivalence classes and rule
    tables. *)
From Coq Require Import ZArith List Bool Lia Permutation Sorted.
From Verif Require Import PQueueSpec CostSpec CostModel CostProofs StrategySpec StrategyModel StrategyProofs EccModel EccProofs.
Import ListNotations.
Open Scope Z_scope.

Lemma C09_total_order_pf : forall a b : list Z, length a = length b ->
  (cost_ltb a b = true <-> lex a b) /\ (cost_leb a b = true <-> lex a b \/ a = b) /\
  (lex a b \/ a = b \/ lex b a) /\ ~ (lex a b /\ lex b a) /\ strict_weak cost_ltb.
Proof.
  intros a b L. pose proof (ltb_lex a b L) as Hab. pose proof (ltb_lex b a (eq_sym L)) as Hba.
  pose proof (cmp_antisym a b) as A. pose proof (cmp_eq a b) as Q. unfold cost_ltb, cost_leb in *.
  split; [exact Hab|]. split; [|split; [|split; [|exact cost_strict_weak]]].
  - destruct (cost_cmp a b) eqn:E.
    + split; [intros _; right; apply Q; reflexivity|reflexivity].
    + split; [intros _; left; apply Hab; reflexivity|reflexivity].
    + split; [discriminate|]. intros [H|H]; [apply Hab in H; discriminate|apply Q in H; discriminate].
  - destruct (cost_cmp a b) eqn:E.
    + right; left. apply Q. reflexivity.
    + left. apply Hab. reflexivity.
    + right; right. apply Hba. rewrite A. reflexivity.
  - intros [H1 H2]. apply Hab in H1. apply Hba in H2. rewrite A in H2. destruct (cost_cmp a b); discriminate.
Qed.

Lemma C09_addition_pf : forall a b c : list Z,
  cost_add a (cost_add b c) = cost_add (cost_add a b) c /\ cost_add a b = cost_add b a /\
  (length a = length b -> length c = length a ->
   (forall i, (i < length a)%nat -> 0 <= nth i a 0 + nth i c 0 < 2 ^ 64) ->
   (forall i, (i < length b)%nat -> 0 <= nth i b 0 + nth i c 0 < 2 ^ 64) ->
   (forall i, (i < length a)%nat -> nth i (cost_add a c) 0 = nth i a 0 + nth i c 0) /\
   (lex a b -> lex (cost_add a c) (cost_add b c))).
Proof.
  intros a b c. split; [apply add_assoc|]. split; [apply add_comm|]. intros L Lc Sa Sb. split.
  - intros i Hi. apply add_nth; [congruence|exact Sa|exact Hi].
  - apply add_mono; assumption.
Qed.

Lemma C09_sum_pf : forall N (l : list (list Z)), (forall v, In v l -> length v = N) ->
  (forall v i, In v l -> (i < N)%nat -> 0 <= component i v < 2 ^ 64) ->
  (forall i, (i < N)%nat -> zsum (map (component i) l) < 2 ^ 64) ->
  is_total N l (cost_sum N l).
Proof.
  intros. apply cost_sum_total; assumption.
Qed.

Lemma C09_delta_exact_pf : forall N (rest pat tgt circ : list (list Z)) tot_p tot_t tot_c tot_c',
  Permutation circ (rest ++ pat) ->
  (forall v i, In v (rest ++ pat ++ tgt) -> (i < N)%nat -> 0 <= component i v) ->
  (forall i, (i < N)%nat -> zsum (map (component i) (rest ++ pat ++ tgt)) < 2 ^ 63) ->
  is_total N pat tot_p -> is_total N tgt tot_t -> is_total N circ tot_c -> is_total N (rest ++ tgt) tot_c' ->
  add_delta tot_c (sub_cost tot_t tot_p) = tot_c'.
Proof.
  exact delta_exact.
Qed.

Lemma C09_delta_wraps_refuted_pf : exists c p t : list Z,
  within 0 (2 ^ 64) c /\ within 0 (2 ^ 64) p /\ within 0 (2 ^ 64) t /\ c = p /\
  add_delta c (sub_cost t p) <> t.
Proof.
  exists [0], [0], [2 ^ 63]. repeat split; try (repeat constructor; lia).
  vm_compute. discriminate.
Qed.

Lemma C10_div_covers_least_partial_pf : forall (a : list Z) n i, 0 < n -> (i < length a)%nat -> 0 <= nth i a 0 ->
  nth i a 0 <= n * nth i (div_cost a n) 0 /\
  (1 <= nth i a 0 -> forall k, nth i a 0 <= n * k -> nth i (div_cost a n) 0 <= k).
Proof.
  intros a n i Hn Hi Ha. unfold div_cost.
  assert (E : nth i (map (fun x => satsub1 x / n + 1) a) 0 = satsub1 (nth i a 0) / n + 1).
  { rewrite (nth_indep _ 0 (satsub1 0 / n + 1)) by (rewrite map_length; assumption).
    rewrite (map_nth (fun x => satsub1 x / n + 1)). reflexivity. }
  rewrite E. split; [apply div_covers; assumption|]. intros H1 k Hk. apply div_least; assumption.
Qed.

Lemma C10_zero_refuted_pf : exists (a : list Z) n, 0 < n /\ within 0 (2 ^ 64) a /\
  exists k, nth 0 a 0 <= n * k /\ k < nth 0 (div_cost a n) 0.
Proof.
  exists [0], 2. split; [lia|]. split; [repeat constructor; lia|]. exists 0. vm_compute. split; [discriminate|reflexivity].
Qed.

Lemma C11_greedy_pf : forall (op : Type) fresh (num_ops : op -> Z) (c : circ op) (rws : list (rewrite op)),
  allocator fresh -> NoDup (ids c) -> (forall rw, In rw rws -> fits c rw) ->
  let delta rw := weigh num_ops (rw_repl rw) - Z.of_nat (length (rw_nodes rw)) in
  exists c' d applied, greedy_apply op fresh num_ops rws c = Some (c', d) /\
    steps c applied c' /\ d = zsum (map delta applied) /\ d <= 0 /\ (d = 0 -> applied = []) /\
    (forall r, In r applied -> In r rws /\ delta r < 0) /\
    pairwise_disjoint (map rw_nodes applied) /\
    StronglySorted (fun a b => delta a <= delta b) applied /\
    (forall r, In r rws -> delta r < 0 -> In r applied \/
       exists a, In a applied /\ overlap (rw_nodes r) (rw_nodes a) /\ delta a <= delta r) /\
    ((forall r o n, In r rws -> In n (rw_nodes r) -> In (n, o) c -> num_ops o = 1) ->
       weigh num_ops (ops c') = weigh num_ops (ops c) + d).
Proof.
  intros op fresh num_ops c rws HA ND HF delta.
  assert (Ed : forall r, node_count_delta op num_ops r = delta r).
  { intro r. unfold node_count_delta, delta. rewrite num_operations_weigh. reflexivity. }
  set (srt := sorted_by_key Z.leb (node_count_delta op num_ops) rws).
  assert (SS : StronglySorted (fun a b => node_count_delta op num_ops a <= node_count_delta op num_ops b) srt).
  { pose proof (sort_sorted _ _ Z.leb (node_count_delta op num_ops)
      ltac:(intros a b; rewrite !Z.leb_le; lia) ltac:(intros a b e; rewrite !Z.leb_le; lia) rws) as S.
    fold srt in S. clearbody srt. induction S; constructor; auto.
    eapply Forall_impl; [|eassumption]. intros x Hx. apply Z.leb_le. exact Hx. }
  assert (PI : forall r, In r srt <-> In r rws).
  { intro r. split; apply Permutation_in; [|apply Permutation_sym]; apply sort_perm. }
  destruct (greedy_loop_ok op fresh (fun l n => proj1 (HA l n)) (fun l n => proj1 (proj2 (HA l n)))
     (fun l n => proj2 (proj2 (HA l n))) num_ops c (take_while (fun rw => node_count_delta op num_ops rw <? 0) srt) [] 0 c)
    as (c' & applied & E & St & _ & Hin & Hdis & _ & Hs & Hmax & Hw).
  - assumption.
  - intros e He _. assumption.
  - intros rw Hrw. apply take_while_In in Hrw. apply HF, PI, Hrw.
  - apply take_while_sorted. exact SS.
  - assert (Hneg : forall r, In r applied -> In r rws /\ delta r < 0).
    { intros r Hr. apply Hin, take_while_In in Hr. destruct Hr as [H1 H2]. split; [apply PI, H1|].
      rewrite <- Ed. apply Z.ltb_lt. exact H2. }
    assert (Em : map (node_count_delta op num_ops) applied = map delta applied) by (apply map_ext; exact Ed).
    rewrite Em in *.
    assert (Hle : zsum (map delta applied) <= 0 /\ (zsum (map delta applied) = 0 -> applied = [])).
    { clear -Hneg. induction applied as [|r l IH]; simpl; [split; [lia|auto]|].
      destruct IH as [H1 H2]; [intros; apply Hneg; simpl; auto|]. destruct (Hneg r (or_introl eq_refl)). split; lia. }
    exists c', (zsum (map delta applied)), applied. split; [exact E|]. split; [exact St|]. split; [reflexivity|].
    split; [apply Hle|]. split; [apply Hle|]. split; [exact Hneg|]. split; [exact Hdis|].
    split.
    { clear -Hs Ed. induction Hs; constructor; auto. eapply Forall_impl; [|eassumption].
      intros x Hx. cbv beta in Hx. rewrite !Ed in Hx. exact Hx. }
    split.
    + intros r Hr Hd. destruct (Hmax r) as [H|[(n & _ & [])|(a & Ha & Ho & Hle')]].
      * apply take_while_all; [exact SS|apply PI; assumption|rewrite Ed; assumption].
      * left; assumption.
      * right. exists a. rewrite !Ed in Hle'. auto.
    + intros H1. apply Hw. intros r o n Hr. apply take_while_In in Hr. apply H1. apply PI, Hr.
Qed.

Lemma C11_delta_is_op_count_refuted_pf :
  exists (op : Type) fresh (num_ops : op -> Z) (c : circ op) (rw : rewrite op) c' d,
    allocator fresh /\ NoDup (ids c) /\ fits c rw /\ (forall o, 0 <= num_ops o <= 1) /\
    greedy_apply op fresh num_ops [rw] c = Some (c', d) /\
    d < 0 /\ weigh num_ops (ops c') = weigh num_ops (ops c).
Proof.
  exists bool, (fun used n => seq (S (list_max used)) n), (fun o : bool => if o then 1 else 0).
  exists [(0%nat, true); (1%nat, false)], {| rw_nodes := [0; 1]%nat; rw_extra := []; rw_repl := [true] |}.
  eexists. eexists. split.
  - intros used n. split; [apply seq_length|]. split; [apply seq_NoDup|]. intros x Hx Hu. apply in_seq in Hx.
    pose proof (proj1 (list_max_le used (list_max used)) (le_n _)) as F. rewrite Forall_forall in F. specialize (F x Hu). lia.
  - split; [repeat constructor; simpl; intuition discriminate|]. split.
    { split; [repeat constructor; simpl; intuition discriminate|]. intros x Hx. exact Hx. }
    split; [intros []; lia|]. split; [vm_compute; reflexivity|]. vm_compute. split; reflexivity.
Qed.

Lemma C12_exhaustive_greedy_pf : forall (op : Type) fresh N (op_cost : op -> list Z) thr (c : circ op) (rws : list (rewrite op)),
  allocator fresh -> (forall o, length (op_cost o) = N) -> (forall o i, 0 <= component i (op_cost o)) ->
  NoDup (ids c) -> (forall rw, In rw rws -> fits c rw) ->
  (forall i, (i < N)%nat -> weigh (fun o => component i (op_cost o)) (ops c)
     + zsum (map (fun rw => weigh (fun o => component i (op_cost o)) (rw_repl rw)) rws) < 2 ^ 63) ->
  exists acc results,
    Permutation (map fst acc)
      (filter (fun rw => match get_ops op (rw_nodes rw) c with
                         | Some os => thr (cost_sum N (map op_cost os)) (cost_sum N (map op_cost (rw_repl rw)))
                         | None => false end) rws) /\
    StronglySorted (fun x y => cost_leb (snd x) (snd y) = true) acc /\
    exhaustive_greedy op fresh N op_cost thr rws c = Some results /\ length results = length acc /\
    forall i c' d count, nth_error results i = Some (c', d, count) ->
      exists applied, applied <> [] /\ hd_error (map fst applied) = hd_error (map fst (skipn i acc)) /\ incl applied (skipn i acc) /\
        steps c (map fst applied) c' /\ count = Z.of_nat (length applied) mod 2 ^ 16 /\
        pairwise_disjoint (map (fun e => rw_nodes (fst e) ++ rw_extra (fst e)) applied) /\
        StronglySorted (fun x y => cost_leb (snd x) (snd y) = true) applied /\
        (forall e, In e (skipn i acc) -> In e applied \/ exists a, In a applied /\
           overlap (rw_nodes (fst e) ++ rw_extra (fst e)) (rw_nodes (fst a) ++ rw_extra (fst a)) /\
           cost_leb (snd a) (snd e) = true) /\
        length d = N /\
        forall k, (k < N)%nat ->
          component k d = zsum (map (fun e => component k (snd e)) applied) /\
          component k d = weigh (fun o => component k (op_cost o)) (ops c') - weigh (fun o => component k (op_cost o)) (ops c).
Proof.
  intros op fresh N op_cost thr c rws HA HL HN ND HF HB.
  destruct (accepted_ok op fresh (fun l n => proj1 (HA l n)) (fun l n => proj1 (proj2 (HA l n)))
    (fun l n => proj2 (proj2 (HA l n))) N op_cost thr HL HN c ND rws HF HB rws (incl_refl _)) as (acc0 & Ea & Hacc & Hmap).
  set (acc := sorted_by_key cost_leb snd acc0).
  assert (Lt : forall a b : list Z, cost_leb a b = true \/ cost_leb b a = true).
  { intros a b. unfold cost_leb. rewrite (cmp_antisym a b). destruct (cost_cmp a b); simpl; auto. }
  assert (Tr : forall a b e : list Z, cost_leb a b = true -> cost_leb b e = true -> cost_leb a e = true).
  { intros a b e. unfold cost_leb. destruct (cost_cmp a b) eqn:E1; [| |discriminate].
    - apply cmp_eq in E1. subst. auto.
    - destruct (cost_cmp b e) eqn:E2; intros; [|rewrite (ltb_trans a b e E1 E2); reflexivity|discriminate].
      apply cmp_eq in E2. subst. rewrite E1. reflexivity. }
  assert (SS : StronglySorted (key_le _ _ cost_leb snd) acc) by (apply sort_sorted; assumption).
  assert (PP : Permutation acc acc0) by apply sort_perm.
  assert (Each : forall i, (i < length acc)%nat -> exists c' applied d,
    exhaustive_loop op fresh (skipn i acc) [] (cost_default N) 0 c = Some (c', d, (0 + Z.of_nat (length applied)) mod 65536) /\
    applied <> [] /\ hd_error (map fst applied) = hd_error (map fst (skipn i acc)) /\ incl applied (skipn i acc) /\
        steps c (map fst applied) c' /\
        pairwise_disjoint (map (fun e => rw_nodes (fst e) ++ rw_extra (fst e)) applied) /\
        StronglySorted (fun x y => cost_leb (snd x) (snd y) = true) applied /\
        (forall e, In e (skipn i acc) -> In e applied \/ exists a, In a applied /\
           overlap (rw_nodes (fst e) ++ rw_extra (fst e)) (rw_nodes (fst a) ++ rw_extra (fst a)) /\
           cost_leb (snd a) (snd e) = true) /\
        length d = N /\
        forall k, (k < N)%nat ->
          component k d = zsum (map (fun e => component k (snd e)) applied) /\
          component k d = weigh (fun o => component k (op_cost o)) (ops c') - weigh (fun o => component k (op_cost o)) (ops c)).
  { intros i Hi.
    destruct (exhaustive_loop_ok op fresh (fun l n => proj1 (HA l n)) (fun l n => proj1 (proj2 (HA l n)))
      (fun l n => proj2 (proj2 (HA l n))) N op_cost HN c ND rws HF HB (skipn i acc) [] (cost_default N) 0 c)
      as (c' & applied & d & E & St & _ & Hin & Hdis & _ & Hs & Hmax & Hhd & Ld & Hd & Hw).
    - assumption.
    - intros e He _. assumption.
    - intros rw d Hrw. assert (In (rw, d) acc0).
      { apply (Permutation_in _ PP). rewrite <- (firstn_skipn i acc). apply in_app_iff. auto. }
      destruct (Hacc rw d H) as (H1 & H2 & _). auto.
    - apply sorted_skipn. assumption.
    - apply repeat_length.
    - intros k Hk. unfold cost_default. rewrite nth_repeat. lia.
    - intros k Hk. eapply Z.le_lt_trans; [|exact (HB k Hk)]. apply Zplus_le_compat_l.
      assert (Nn : forall l, 0 <= zsum (map (fun e : rewrite op * list Z => post op op_cost k (fst e)) l)).
      { intro l. apply zsum_nonneg. intros y Hy. apply in_map_iff in Hy. destruct Hy as (e & <- & _). apply w_nonneg. assumption. }
      assert (A1 : zsum (map (fun e => post op op_cost k (fst e)) (skipn i acc)) <= zsum (map (fun e => post op op_cost k (fst e)) acc)).
      { rewrite <- (firstn_skipn i acc) at 2. rewrite map_app, zsum_app. specialize (Nn (firstn i acc)). lia. }
      rewrite (zsum_perm _ _ (Permutation_map (fun e => post op op_cost k (fst e)) PP)) in A1.
      eapply Z.le_trans; [exact A1|]. rewrite <- (map_map fst (post op op_cost k)), Hmap.
      clear -HN. induction rws as [|r rws IH]; simpl; [lia|].
      assert (0 <= post op op_cost k r) by (apply w_nonneg; assumption).
      unfold post, w in *. destruct (match pre_rewrite_cost op N op_cost r c with Some p => _ | None => _ end); simpl; lia.
    - lia.
    - exists c', applied, d. split; [exact E|]. specialize (Hhd eq_refl). split.
      { intros ->. simpl in Hhd. destruct (skipn i acc) eqn:Es; [|discriminate].
        apply (f_equal (@length _)) in Es. rewrite skipn_length in Es. simpl in Es. lia. }
      split; [exact Hhd|]. split; [exact Hin|]. split; [exact St|]. split; [exact Hdis|]. split; [exact Hs|]. split.
      { intros e He. destruct (Hmax e He) as [H|[(n & _ & [])|H]]; auto. }
      split; [exact Ld|]. intros k Hk. specialize (Hd k Hk). specialize (Hw k Hk). unfold component at 1 3. unfold w in *.
      split; [|exact Hd]. rewrite Hd. unfold component in *. lia. }
  assert (Sq : forall n m, (n + m <= length acc)%nat ->
    exists rs, sequence (map (fun i => exhaustive_loop op fresh (skipn i acc) [] (cost_default N) 0 c) (seq n m)) = Some rs /\
      length rs = m /\ forall i r, nth_error rs i = Some r ->
        (n + i < length acc)%nat /\ exhaustive_loop op fresh (skipn (n + i) acc) [] (cost_default N) 0 c = Some r).
  { intros n m. revert n. induction m as [|m IH]; intros n Hm; simpl.
    - exists []. repeat split; try reflexivity; destruct i; discriminate.
    - destruct (Each n ltac:(lia)) as (c' & applied & d & E & _). rewrite E.
      destruct (IH (S n) ltac:(lia)) as (rs & Er & Lr & Hr). rewrite Er. eexists. split; [reflexivity|].
      split; [simpl; congruence|]. intros [|i] r Hi; simpl in Hi.
      + injection Hi as <-. rewrite Nat.add_0_r. split; [lia|exact E].
      + apply Hr in Hi. rewrite Nat.add_succ_r. exact Hi. }
  destruct (Sq 0%nat (length acc) (le_n _)) as (rs & Er & Lr & Hr).
  exists acc, rs. split; [|split; [exact SS|]].
  - rewrite (Permutation_map fst PP), Hmap. apply Permutation_refl' . apply filter_ext. intro rw.
    unfold pre_rewrite_cost, post_rewrite_cost, circuit_cost. destruct (get_ops op (rw_nodes rw) c); reflexivity.
  - split; [unfold exhaustive_greedy; rewrite Ea; exact Er|]. split; [exact Lr|].
    intros i c' d count Hi. destruct (Hr i _ Hi) as [Hlt E]. destruct (Each i Hlt) as (c1 & applied & d1 & E1 & R).
    simpl in E. rewrite E1 in E. injection E as <- <- <-.
    destruct R as (R1 & R2 & R3 & R4 & R5 & R6 & R7 & R8). exists applied. auto 12.
Qed.

Lemma C12_default_threshold_pf : forall pat tgt : list Z, length tgt = length pat -> (0 < length pat)%nat ->
  within 0 (2 ^ 63) pat -> within 0 (2 ^ 63) tgt ->
  (default_threshold pat tgt = true <-> component 0 tgt <= component 0 pat).
Proof.
  intros [|p pat] [|t tgt] L H Wp Wt; simpl in *; try lia. inversion Wp; inversion Wt; subst.
  unfold default_threshold, sub_cost, component, as_isize. simpl.
  rewrite (wrapi_id p), (wrapi_id t), wrapi_id by (unfold m63; lia). rewrite Z.leb_le. lia.
Qed.

Lemma C12_exhaustive_threshold_pf : forall (op : Type) fresh N (op_cost : op -> list Z) thr (c : circ op) (rws : list (rewrite op)),
  allocator fresh -> (forall o, length (op_cost o) = N) -> (forall o i, 0 <= component i (op_cost o)) ->
  NoDup (ids c) -> (forall rw, In rw rws -> fits c rw) ->
  (forall i, (i < N)%nat -> weigh (fun o => component i (op_cost o)) (ops c)
     + zsum (map (fun rw => weigh (fun o => component i (op_cost o)) (rw_repl rw)) rws) < 2 ^ 63) ->
  exists results, exhaustive_threshold op fresh N op_cost thr rws c = Some results /\
    Forall2 (fun rw r => step c rw (fst r) /\ length (snd r) = N /\
       forall k, (k < N)%nat -> component k (snd r) =
         weigh (fun o => component k (op_cost o)) (ops (fst r)) - weigh (fun o => component k (op_cost o)) (ops c))
      (filter (fun rw => match get_ops op (rw_nodes rw) c with
                         | Some os => thr (cost_sum N (map op_cost os)) (cost_sum N (map op_cost (rw_repl rw)))
                         | None => false end) rws) results.
Proof.
  intros op fresh N op_cost thr c rws HA HL HN ND HF HB.
  destruct (accepted_ok op fresh (fun l n => proj1 (HA l n)) (fun l n => proj1 (proj2 (HA l n)))
    (fun l n => proj2 (proj2 (HA l n))) N op_cost thr HL HN c ND rws HF HB rws (incl_refl _)) as (acc & Ea & Hacc & Hmap).
  unfold exhaustive_threshold. rewrite Ea.
  assert (G : forall l, incl l acc -> exists rs,
    sequence (map (fun e => match apply op fresh (fst e) c with Some c' => Some (c', snd e) | None => None end) l) = Some rs /\
    Forall2 (fun rw r => step c rw (fst r) /\ length (snd r) = N /\
       forall k, (k < N)%nat -> component k (snd r) =
         weigh (fun o => component k (op_cost o)) (ops (fst r)) - weigh (fun o => component k (op_cost o)) (ops c))
      (map fst l) rs).
  { induction l as [|[rw d] l IH]; intro Hl; simpl; [exists []; split; [reflexivity|constructor]|].
    destruct (Hacc rw d (Hl _ (or_introl eq_refl))) as (Hr & (Hd1 & Hd2) & _).
    destruct (apply_ok op fresh (fun l n => proj1 (HA l n)) (fun l n => proj1 (proj2 (HA l n)))
      (fun l n => proj2 (proj2 (HA l n))) rw c ND (HF rw Hr)) as (c' & E & St & _ & _). rewrite E.
    destruct IH as (rs & Er & Fr); [intros x Hx; apply Hl; right; assumption|]. rewrite Er. eexists. split; [reflexivity|].
    constructor; [|exact Fr]. cbn [fst snd]. split; [exact St|]. split; [exact Hd1|]. intros k Hk.
    destruct (get_ops_ok op (rw_nodes rw) c ND (proj2 (HF rw Hr))) as (os & Eo & Fo).
    rewrite (step_weight op (fun o => component k (op_cost o)) c c' rw os ND St Fo).
    unfold component at 1. rewrite (Hd2 k Hk). unfold pre, post, w. rewrite Eo. lia. }
  destruct (G acc (incl_refl _)) as (rs & Er & Fr). exists rs. split; [exact Er|].
  rewrite Hmap in Fr. erewrite filter_ext; [exact Fr|]. intro rw.
  unfold pre_rewrite_cost, post_rewrite_cost, circuit_cost. destruct (get_ops op (rw_nodes rw) c); reflexivity.
Qed.

Lemma C13_representative_minimal_pf : forall (circ : Type) (num_operations : circ -> nat) (l : list circ),
  match from_circuits circ num_operations l with
  | None => l = []
  | Some e => l <> [] /\ Permutation (rep_circ circ e :: other_circs circ e) l /\
              forall c, In c l -> (num_operations (rep_circ circ e) <= num_operations c)%nat
  end.
Proof.
  intros circ n l. pose proof (from_circuits_ok circ n l) as H. destruct (from_circuits circ n l) as [e|]; [|exact H].
  destruct H as [H1 H2]. split; [|auto]. intros ->. apply Permutation_sym, Permutation_nil in H1. discriminate.
Qed.

Lemma C46_rules_within_class_pf : forall (circ pat : Type) (pattern_of : circ -> option pat) (empty_wires : circ -> list nat)
  (es : list (eqclass circ)),
  exists w, from_eccs circ pat pattern_of empty_wires es = Some w /\
  (forall i row, nth_error (rows circ pat w) i = Some row ->
     exists e c cand ts, In e es /\ pattern_of c = Some (fst (fst row)) /\ snd (fst row) = empty_wires c /\
       ((c = rep_circ circ e /\ cand = other_circs circ e) \/
        (In c (other_circs circ e) /\ cand = [rep_circ circ e])) /\
       get_targets circ pat w i = Some ts /\
       (forall t, In t ts <-> In t cand /\ incl (empty_wires c) (empty_wires t))) /\
  (forall e c cand p, In e es -> pattern_of c = Some p ->
     (c = rep_circ circ e /\ cand = other_circs circ e) \/ (In c (other_circs circ e) /\ cand = [rep_circ circ e]) ->
     exists i r ts, nth_error (rows circ pat w) i = Some (p, empty_wires c, r) /\ get_targets circ pat w i = Some ts /\
       forall t, In t ts <-> In t cand /\ incl (empty_wires c) (empty_wires t)).
Proof.
  intros circ pat pattern_of ew es. destruct (from_eccs_ok circ pat pattern_of ew es) as (w & E & _).
  destruct (get_targets_ok circ pat pattern_of ew es w E) as [L G].
  assert (Fl : forall c cand t, In t (filter (allowed circ ew c) cand) <-> In t cand /\ incl (ew c) (ew t)).
  { intros. rewrite filter_In. unfold allowed. rewrite subset_incl. reflexivity. }
  exists w. split; [exact E|]. split.
  - intros i row Hi. assert (Hlt : (i < length (flat_map (class_rows circ pat pattern_of ew) es))%nat).
    { rewrite <- L. apply nth_error_Some. congruence. }
    apply nth_error_Some in Hlt. destruct (nth_error (flat_map _ es) i) as [[[p ew'] ts]|] eqn:En; [|congruence].
    destruct (G i p ew' ts En) as [(r & Er) Gt]. rewrite Hi in Er. injection Er as ->.
    apply nth_error_In, in_flat_map in En. destruct En as (e & He & Hr). apply in_class_rows in Hr.
    destruct Hr as (c & cand & Hp & Hc & -> & ->). exists e, c, cand, (filter (allowed circ ew c) cand).
    simpl. split; [exact He|]. split; [exact Hc|]. split; [reflexivity|]. split; [exact Hp|]. split; [exact Gt|]. apply Fl.
  - intros e c cand p He Hc Hp.
    assert (Hin : In (p, ew c, filter (allowed circ ew c) cand) (flat_map (class_rows circ pat pattern_of ew) es)).
    { apply in_flat_map. exists e. split; [exact He|]. apply in_class_rows. exists c, cand. auto. }
    apply In_nth_error in Hin. destruct Hin as (i & Ei). destruct (G i _ _ _ Ei) as [(r & Er) Gt].
    exists i, r, (filter (allowed circ ew c) cand). split; [exact Er|]. split; [exact Gt|]. apply Fl.
Qed.

Lemma C46_rules_sound_pf : forall (circ pat : Type) (pattern_of : circ -> option pat) (empty_wires : circ -> list nat)
  (equiv : circ -> circ -> Prop) (es : list (eqclass circ)) w,
  (forall e a b, In e es -> In a (rep_circ circ e :: other_circs circ e) -> In b (rep_circ circ e :: other_circs circ e) -> equiv a b) ->
  from_eccs circ pat pattern_of empty_wires es = Some w ->
  forall i p ew r ts t, nth_error (rows circ pat w) i = Some (p, ew, r) -> get_targets circ pat w i = Some ts -> In t ts ->
    exists c, pattern_of c = Some p /\ equiv c t.
Proof.
  intros circ pat pattern_of ew equiv es w Heq E i p ew' r ts t Hi Gt Ht.
  destruct (C46_rules_within_class_pf circ pat pattern_of ew es) as (w' & E' & H1 & _).
  rewrite E in E'. injection E' as <-. destruct (H1 i _ Hi) as (e & c & cand & ts' & He & Hc & _ & Hp & Gt' & Hts).
  rewrite Gt in Gt'. injection Gt' as <-. exists c. split; [exact Hc|]. apply Hts in Ht. destruct Ht as [Ht _].
  apply (Heq e c t He); destruct Hp as [[-> ->]|[Hp ->]]; simpl; auto. destruct Ht as [<-|[]]. auto.
Qed.

Lemma C47_gamma_partial_pf : forall pattern target : nat,
  (gamma_threshold 1 1 pattern target = true <-> (target < pattern)%nat) /\
  (1 <= Z.of_nat pattern <= 10000 -> forall num den, Z.of_nat num = 10001 -> Z.of_nat den = 10000 ->
     (gamma_threshold num den pattern target = true <-> (target <= pattern)%nat)).
Proof.
  intros p t. unfold gamma_threshold. split; [rewrite Nat.ltb_lt; lia|].
  intros Hp num den Hn Hd. rewrite Nat.ltb_lt. split; intro H; nia.
Qed.

Lemma C47_zero_cost_refuted_pf : forall num den, gamma_threshold num den 0 0 = false.
Proof.
  intros. unfold gamma_threshold. rewrite Nat.mul_0_r. apply Nat.ltb_irrefl.
Qed.

