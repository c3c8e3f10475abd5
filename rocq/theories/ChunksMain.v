(** Proofs of the properties C14 and C15: splitting a circuit into chunks and reassembling it. *)
From Coq Require Import ZArith List Bool Arith Lia Permutation.
From Verif Require Import CostModel ChunksSpec ChunksModel ChunksProofs ChunksExtract ChunksGroups.
Import ListNotations.
Open Scope nat_scope.

Lemma C14_partition_pf : forall (A : Type) N max_cost (op_cost : A -> list Z) commands,
  concat (split_groups N max_cost op_cost commands) = commands /\
  Forall (fun g => g <> []) (split_groups N max_cost op_cost commands).
Proof.
  intros. apply split_partition.
Qed.

Lemma C14_cost_groups_pf : forall (A : Type) N max0 max' (op_cost : A -> list Z) (cost : A -> Z) commands a g b,
  0 < N -> (0 <= max0 < 2 ^ 63)%Z ->
  (forall x, In x commands -> (0 <= cost x)%Z /\ exists c', op_cost x = cost x :: c') ->
  (fold_right Z.add 0 (map cost commands) < 2 ^ 63)%Z ->
  split_groups N (max0 :: max') op_cost commands = a ++ g :: b ->
  exists x t, g = x :: t /\
    let counted := match a with [] => if (max0 <? cost x)%Z then t else g | _ => t end in
    (fold_right Z.add 0 (map cost counted) <= max0)%Z /\
    forall y u r, b = (y :: u) :: r -> (max0 < fold_right Z.add 0 (map cost counted) + cost y)%Z.
Proof.
  intros A N max0 max' op_cost cost commands a g b HN Hm Hc Hs E.
  assert (Ec : forall x, In x commands -> as_isize (op_cost x) = cost x) by (intros x Hx; destruct (Hc x Hx) as (_ & c' & ->); reflexivity).
  rewrite split_zgroups in E; try assumption.
  2:{ intros x Hx. destruct (Hc x Hx) as (H0 & c' & ->). eauto. }
  2:{ replace (map (fun x => as_isize (op_cost x)) commands) with (map cost commands); [assumption|]. apply map_ext_in. intros x Hx. symmetry. auto. }
  set (co := fun x => as_isize (op_cost x)) in *.
  destruct (zgroups_tight A co max0 commands 0 ltac:(lia)) as (P & T & B & Nx).
  { intros x Hx. unfold co. rewrite (Ec x Hx). apply Hc. assumption. } { lia. }
  set (p := zgroups A co max0 0 commands) in *.
  assert (Sub : forall l, (forall x, In x l -> In x commands) -> fold_right Z.add 0%Z (map co l) = fold_right Z.add 0%Z (map cost l)).
  { intros l Hl. f_equal. apply map_ext_in. intros x Hx. apply Ec, Hl, Hx. }
  assert (All : forall h x, In h (a ++ g :: b) -> In x h -> In x commands).
  { intros h x Hh Hx. rewrite <- P. rewrite <- E in Hh. unfold first_group in Hh. apply in_app_iff. destruct (fst p) as [|y f]; simpl in Hh.
    - right. apply in_concat. eauto.
    - destruct Hh as [<-|Hh]; [left; assumption|right; apply in_concat; eauto]. }
  assert (Ing : forall x, In x g -> In x commands) by (intros x; apply (All g); apply in_app_iff; right; left; reflexivity).
  assert (Inb : forall y u r, b = (y :: u) :: r -> In y commands).
  { intros y u r ->. apply (All (y :: u)); [apply in_app_iff; right; right; left; reflexivity|left; reflexivity]. }
  assert (Tight : tight A co max0 g b -> exists x t, g = x :: t /\ (fold_right Z.add 0 (map cost t) <= max0)%Z /\
    forall y u r, b = (y :: u) :: r -> (max0 < fold_right Z.add 0 (map cost t) + cost y)%Z).
  { intros (x & t & -> & H1 & H2). unfold total in *. rewrite Sub in * by (intros; apply Ing; right; assumption).
    exists x, t. split; [reflexivity|]. split; [assumption|]. intros y u r Er. specialize (H2 y u r Er).
    unfold co in H2. rewrite Ec in H2 by (eapply Inb; exact Er). assumption. }
  assert (Later : forall a0 g0 b0, snd p = a0 ++ g0 :: b0 -> tight A co max0 g0 b0).
  { intros a0 g0 b0 Es. apply (all_tight_app A co max0 a0). rewrite <- Es. assumption. }
  unfold first_group in E. destruct (fst p) as [|x f] eqn:Ef.
  - assert (Tg : tight A co max0 g b) by (apply (Later a); assumption).
    destruct (Tight Tg) as (x & t & -> & H1 & H2). exists x, t. split; [reflexivity|]. cbv zeta.
    destruct a as [|a0 a]; [|auto]. simpl in E. specialize (Nx x t b E). unfold total in Nx. simpl in Nx. unfold co in Nx.
    rewrite (Ec x (Ing x (or_introl eq_refl))) in Nx. destruct (Z.ltb_spec max0 (cost x)); [auto|lia].
  - destruct a as [|a0 a]; simpl in E; injection E as E1 E2.
    + subst g b. exists x, f. split; [reflexivity|]. cbv zeta.
      assert (H0 : (0 <= fold_right Z.add 0 (map co f))%Z).
      { apply zsum_nonneg. apply Forall_forall. intros c Hin. apply in_map_iff in Hin. destruct Hin as (y & <- & Hy).
        unfold co. rewrite Ec by (apply Ing; right; assumption). apply Hc, Ing. right. assumption. }
      unfold total in *. rewrite Sub in B by exact Ing. rewrite Sub in Nx by exact Ing. simpl in B, Nx, H0.
      rewrite Sub in H0 by (intros; apply Ing; right; assumption).
      destruct (Z.ltb_spec max0 (cost x)); [lia|]. simpl. split; [lia|]. intros y u r Er. specialize (Nx y u r Er).
      unfold co in Nx. rewrite Ec in Nx by (eapply Inb; exact Er). lia.
    + destruct (Tight (Later a g b E2)) as (y & t & Eg & H1 & H2). exists y, t. auto.
Qed.

Lemma C14_sizes_pf : forall (A : Type) max_size (commands : list A) a g b,
  (1 <= max_size <= 2 ^ 63)%Z -> (Z.of_nat (length commands) < 2 ^ 63)%Z ->
  split_by_size max_size commands = a ++ g :: b ->
  (1 <= Z.of_nat (length g) <= max_size)%Z /\
  (b <> [] -> Z.of_nat (length g) = match a with [] => Z.max 1 (max_size - 1) | _ => max_size end).
Proof.
  intros A max_size commands a g b Hm Hl E.
  assert (Sum : forall l : list A, fold_right Z.add 0%Z (map (fun _ => 1%Z) l) = Z.of_nat (length l)).
  { induction l as [|x l IH]; [reflexivity|]. cbn [map fold_right length]. rewrite IH. lia. }
  unfold split_by_size in E.
  destruct (C14_cost_groups_pf A 1 (Z.max 0 (max_size - 1)) [] (fun _ => [1%Z]) (fun _ => 1%Z) commands a g b) as (x & t & -> & H1 & H2); try assumption.
  - lia.
  - lia.
  - intros y _. split; [lia|]. exists []. reflexivity.
  - rewrite Sum. assumption.
  - cbv zeta in H1, H2. assert (Lg : length (x :: t) = S (length t)) by reflexivity.
    assert (Hb : b <> [] -> exists y u r, b = (y :: u) :: r).
    { intro Hb. destruct b as [|h r]; [congruence|]. pose proof (proj2 (C14_partition_pf A 1 [Z.max 0 (max_size - 1)] (fun _ => [1%Z]) commands)) as F.
      rewrite E in F. apply Forall_app in F. destruct F as [_ F]. inversion F as [|? ? _ F']; subst. inversion F'; subst. destruct h; [congruence|eauto]. }
    destruct a as [|a0 a].
    + destruct (Z.ltb_spec (Z.max 0 (max_size - 1)) 1).
      * rewrite Sum in H1, H2. split; [lia|]. intro Hb'. destruct (Hb Hb') as (y & u & r & Er). specialize (H2 y u r Er). lia.
      * rewrite Sum in H1, H2. split; [lia|]. intro Hb'. destruct (Hb Hb') as (y & u & r & Er). specialize (H2 y u r Er). lia.
    + rewrite Sum in H1, H2. split; [lia|]. intro Hb'. destruct (Hb Hb') as (y & u & r & Er). specialize (H2 y u r Er). lia.
Qed.

Lemma C14_cost_bound_refuted_pf : exists (op_cost : nat -> list Z) (max_cost : Z) commands g,
  (forall x, op_cost x = [5%Z]) /\ max_cost = 5%Z /\
  In g (split_groups 1 [max_cost] op_cost commands) /\ fold_right Z.add 0%Z (map (fun x => as_isize (op_cost x)) g) = 10%Z.
Proof.
  exists (fun _ => [5%Z]), 5%Z, [0; 1; 2], [1; 2]. split; [reflexivity|]. split; [reflexivity|]. split; [right; left; reflexivity|reflexivity].
Qed.

Lemma C14_full_refuted_pf : exists (commands : list nat) g h b, split_by_size 3 commands = g :: h :: b /\ length g < 3.
Proof.
  exists [0; 1; 2; 3; 4], [0; 1], [2; 3; 4], []. split; [reflexivity|]. simpl. lia.
Qed.

Lemma C14_zero_refuted_pf : forall (A : Type) (commands : list A), split_by_size 0 commands = map (fun x => [x]) commands.
Proof.
  intros A commands. unfold split_by_size, split_groups. change (cost_default 1) with [0%Z].
  replace (keys 1 [Z.max 0 (0 - 1)] [0%Z] 0 (map (fun _ => [1%Z]) commands)) with (seq 1 (length commands)); [apply chunk_by_seq|].
  change 1 with (S 0) at 1.
  enough (G : forall g, seq (S g) (length commands) = keys 1 [Z.max 0 (0 - 1)] [0%Z] g (map (fun _ => [1%Z]) commands)) by apply G.
  induction commands as [|x l IH]; intro g; [reflexivity|]. cbn [length seq map keys].
  replace (0 <? as_isize (sub_cost (cost_add [0] [1]) [Z.max 0 (0 - 1)]))%Z with true by reflexivity. f_equal. apply IH.
Qed.

Lemma C14_huge_bound_refuted_pf : forall (A : Type) max_size (commands : list A), (2 ^ 63 + 3 <= max_size < 2 ^ 64)%Z ->
  split_by_size max_size commands = map (fun x => [x]) commands.
Proof.
  intros A max_size commands H. unfold split_by_size, split_groups. change (cost_default 1) with [0%Z].
  rewrite huge_keys by exact H. apply chunk_by_seq.
Qed.

Lemma C15_roundtrip_pf : forall (op : Type) (n_outs : op -> nat) (n_in : nat) (c : circuit op) iter sizes,
  (forall A (l : list (name * A)), Permutation (iter A l) l) ->
  circuit_wf op n_outs n_in c -> list_sum sizes = length (cir_nodes op c) -> reads_once op c 0 sizes ->
  exists g, split_reassemble op n_outs iter n_in c sizes = Some g /\ g_ops op g = map fst (cir_nodes op c) /\
    forall s t, In (s, t) (g_edges op g) <-> circuit_edge op c s t.
Proof.
  intros op n_outs n_in c iter sizes Hi Hwf Hs Hr. apply roundtrip_ok; assumption.
Qed.

Lemma C15_split_roundtrip_pf : forall (op : Type) (n_outs : op -> nat) (n_in : nat) (c : circuit op) iter N max_cost op_cost,
  let sizes := map (@length _) (split_groups N max_cost op_cost (cir_nodes op c)) in
  (forall A (l : list (name * A)), Permutation (iter A l) l) ->
  circuit_wf op n_outs n_in c -> reads_once op c 0 sizes ->
  exists g, split_reassemble op n_outs iter n_in c sizes = Some g /\ g_ops op g = map fst (cir_nodes op c) /\
    forall s t, In (s, t) (g_edges op g) <-> circuit_edge op c s t.
Proof.
  intros op n_outs n_in c iter N max_cost op_cost sizes Hi Hwf Hr. apply roundtrip_ok; try assumption. apply split_sizes.
Qed.

Lemma C15_replacement_pf : forall (op : Type) (n_outs : op -> nat) (n_in : nat) (c : circuit op) iter
  (V : Type) (sem : op -> list V -> list V) ins outs sizes cs,
  (forall A (l : list (name * A)), Permutation (iter A l) l) ->
  circuit_wf op n_outs n_in c -> (forall o vs, length (sem o vs) = n_outs o) -> length ins = n_in ->
  run_circuit op V sem c ins = Some outs -> list_sum sizes = length (cir_nodes op c) -> reads_once op c 0 sizes ->
  Forall2 (replaces op V sem) (extract_all op n_outs c 0 sizes) cs ->
  exists g, reassemble op iter (inputs_of n_in) (cir_outs op c) cs = Some g /\
    g_ops op g = flat_map (fun ch => map fst (b_nodes op (c_body op ch))) cs /\
    computes op V sem g (flat_map (fun ch => map (fun n => length (snd n)) (b_nodes op (c_body op ch))) cs) ins outs.
Proof.
  intros op n_outs n_in c iter V sem ins outs sizes cs Hi Hwf Hsem Hl Hrun Hs Hr F.
  apply replaced_ok with (n_outs := n_outs) (sizes := sizes); assumption.
Qed.

Lemma C15_shared_wire_refuted_pf : exists (c : circuit nat) sizes g,
  circuit_wf nat (fun _ => 1) 3 c /\ list_sum sizes = length (cir_nodes nat c) /\
  split_reassemble nat (fun _ => 1) (fun _ l => l) 3 c sizes = Some g /\
  circuit_edge nat c (SIn 2) (TNode 0 1) /\ forall s, ~ In (s, TNode 0 1) (g_edges nat g).
Proof.
  exists {| cir_nodes := [(0, [(0, 0); (0, 2)]); (0, [(0, 1); (0, 2)])]; cir_outs := [(1, 0); (2, 0)] |}, [2].
  eexists. split; [|split; [reflexivity|split; [reflexivity|split]]].
  - split.
    + intros [|[|[|k]]] o ws w H Hw; try discriminate; injection H as <- <-; simpl in Hw;
        repeat (destruct Hw as [<-|Hw]; [unfold available; simpl; lia|]); destruct Hw.
    + intros w [<-|[<-|[]]]; unfold available; simpl; split; try lia; eexists; eexists; (split; [reflexivity|lia]).
  - exists 0, [(0, 0); (0, 2)], (0, 2). auto.
  - intros s H. simpl in H. repeat (destruct H as [H|H]; [discriminate H|]). exact H.
Qed.

