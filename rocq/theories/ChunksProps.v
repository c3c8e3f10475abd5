(** Properties C14 and C15: splitting a circuit into chunks and reassembling it. *)
From Coq Require Import ZArith List Bool Arith Lia Permutation.
From Verif Require Import CostModel ChunksSpec ChunksModel ChunksProofs ChunksExtract ChunksGroups ChunksMain.
Import ListNotations.
Open Scope nat_scope.

(** ** C14 *)

(** Every command is in exactly one chunk, in order, and no chunk is empty: for every cost
    function and bound. *)
Theorem C14_partition : forall (A : Type) N max_cost (op_cost : A -> list Z) commands,
  concat (split_groups N max_cost op_cost commands) = commands /\
  Forall (fun g => g <> []) (split_groups N max_cost op_cost commands).
Proof. exact C14_partition_pf. Qed.

(** The cost of the chunks, first component of the cost, without overflow. A chunk after the
    first has cost at most the bound, not counting its first operation, and would exceed it with
    the first operation of the next chunk. For the first chunk the first operation counts too,
    unless it exceeds the bound by itself. *)
Theorem C14_cost_groups : forall (A : Type) N max0 max' (op_cost : A -> list Z) (cost : A -> Z) commands a g b,
  0 < N -> (0 <= max0 < 2 ^ 63)%Z ->
  (forall x, In x commands -> (0 <= cost x)%Z /\ exists c', op_cost x = cost x :: c') ->
  (fold_right Z.add 0 (map cost commands) < 2 ^ 63)%Z ->
  split_groups N (max0 :: max') op_cost commands = a ++ g :: b ->
  exists x t, g = x :: t /\
    let counted := match a with [] => if (max0 <? cost x)%Z then t else g | _ => t end in
    (fold_right Z.add 0 (map cost counted) <= max0)%Z /\
    forall y u r, b = (y :: u) :: r -> (max0 < fold_right Z.add 0 (map cost counted) + cost y)%Z.
Proof. exact C14_cost_groups_pf. Qed.

(** By size: no chunk has more than max_size operations. The chunks after the first, but the
    last, have exactly max_size; the first has max_size - 1 if it is not the last (1 if
    max_size is 1). *)
Theorem C14_sizes : forall (A : Type) max_size (commands : list A) a g b,
  (1 <= max_size <= 2 ^ 63)%Z -> (Z.of_nat (length commands) < 2 ^ 63)%Z ->
  split_by_size max_size commands = a ++ g :: b ->
  (1 <= Z.of_nat (length g) <= max_size)%Z /\
  (b <> [] -> Z.of_nat (length g) = match a with [] => Z.max 1 (max_size - 1) | _ => max_size end).
Proof. exact C14_sizes_pf. Qed.

(** False of the code: a chunk can cost more than max_cost, because the operation that opens a
    chunk is not counted. *)
Theorem C14_cost_bound_refuted : exists (op_cost : nat -> list Z) (max_cost : Z) commands g,
  (forall x, op_cost x = [5%Z]) /\ max_cost = 5%Z /\
  In g (split_groups 1 [max_cost] op_cost commands) /\ fold_right Z.add 0%Z (map (fun x => as_isize (op_cost x)) g) = 10%Z.
Proof. exact C14_cost_bound_refuted_pf. Qed.

(** False of the code: the first chunk can have room for the next operation. *)
Theorem C14_full_refuted : exists (commands : list nat) g h b, split_by_size 3 commands = g :: h :: b /\ length g < 3.
Proof. exact C14_full_refuted_pf. Qed.

(** False of the code: max_size = 0 is not respected. *)
Theorem C14_zero_refuted : forall (A : Type) (commands : list A), split_by_size 0 commands = map (fun x => [x]) commands.
Proof. exact C14_zero_refuted_pf. Qed.

(** False of the code: a bound above the isize range puts every operation in a chunk of its own,
    although all of them would fit in one. *)
Theorem C14_huge_bound_refuted : forall (A : Type) max_size (commands : list A), (2 ^ 63 + 3 <= max_size < 2 ^ 64)%Z ->
  split_by_size max_size commands = map (fun x => [x]) commands.
Proof. exact C14_huge_bound_refuted_pf. Qed.

(** ** C15 *)

(** Splitting a well-formed circuit into consecutive groups of any sizes and reassembling them
    gives a graph with the same operations in the same order and exactly the same connections,
    whatever the order in which the hash maps are iterated, if no group reads a wire from
    outside twice. *)
Theorem C15_roundtrip : forall (op : Type) (n_outs : op -> nat) (n_in : nat) (c : circuit op) iter sizes,
  (forall A (l : list (name * A)), Permutation (iter A l) l) ->
  circuit_wf op n_outs n_in c -> list_sum sizes = length (cir_nodes op c) -> reads_once op c 0 sizes ->
  exists g, split_reassemble op n_outs iter n_in c sizes = Some g /\ g_ops op g = map fst (cir_nodes op c) /\
    forall s t, In (s, t) (g_edges op g) <-> circuit_edge op c s t.
Proof. exact C15_roundtrip_pf. Qed.

(** The groups of split_with_cost are such groups, for every cost function and bound. *)
Theorem C15_split_roundtrip : forall (op : Type) (n_outs : op -> nat) (n_in : nat) (c : circuit op) iter N max_cost op_cost,
  let sizes := map (@length _) (split_groups N max_cost op_cost (cir_nodes op c)) in
  (forall A (l : list (name * A)), Permutation (iter A l) l) ->
  circuit_wf op n_outs n_in c -> reads_once op c 0 sizes ->
  exists g, split_reassemble op n_outs iter n_in c sizes = Some g /\ g_ops op g = map fst (cir_nodes op c) /\
    forall s t, In (s, t) (g_edges op g) <-> circuit_edge op c s t.
Proof. exact C15_split_roundtrip_pf. Qed.

(** Replacing chunks by others with the same interface that compute the same, including plain
    wires: the reassembled graph is a well-formed circuit with exactly the operations of the new
    chunks, every port is connected once, and it computes what the original circuit computes,
    for every interpretation of the operations. *)
Theorem C15_replacement : forall (op : Type) (n_outs : op -> nat) (n_in : nat) (c : circuit op) iter
  (V : Type) (sem : op -> list V -> list V) ins outs sizes cs,
  (forall A (l : list (name * A)), Permutation (iter A l) l) ->
  circuit_wf op n_outs n_in c -> (forall o vs, length (sem o vs) = n_outs o) -> length ins = n_in ->
  run_circuit op V sem c ins = Some outs -> list_sum sizes = length (cir_nodes op c) -> reads_once op c 0 sizes ->
  Forall2 (replaces op V sem) (extract_all op n_outs c 0 sizes) cs ->
  exists g, reassemble op iter (inputs_of n_in) (cir_outs op c) cs = Some g /\
    g_ops op g = flat_map (fun ch => map fst (b_nodes op (c_body op ch))) cs /\
    computes op V sem g (flat_map (fun ch => map (fun n => length (snd n)) (b_nodes op (c_body op ch))) cs) ins outs.
Proof. exact C15_replacement_pf. Qed.

(** False of the code without the condition on reads: two operations of a chunk read the same
    angle wire from outside, and the first loses its connection. *)
Theorem C15_shared_wire_refuted : exists (c : circuit nat) sizes g,
  circuit_wf nat (fun _ => 1) 3 c /\ list_sum sizes = length (cir_nodes nat c) /\
  split_reassemble nat (fun _ => 1) (fun _ l => l) 3 c sizes = Some g /\
  circuit_edge nat c (SIn 2) (TNode 0 1) /\ forall s, ~ In (s, TNode 0 1) (g_edges nat g).
Proof. exact C15_shared_wire_refuted_pf. Qed.

(** ** Instances *)

(** Costs 2, 3, 1, 4, 1 with bound 5: chunks [2; 3], [1; 4; 1]; the middle 1 opens a chunk. *)
Example C14_instance : split_groups 1 [5%Z] (fun x => [x]) [2; 3; 1; 4; 1]%Z = [[2; 3]; [1; 4; 1]]%Z.
Proof. reflexivity. Qed.
Example C14_cost_groups_instance : exists x t, [1; 4; 1]%Z = x :: t /\ (fold_right Z.add 0 t <= 5)%Z.
Proof.
  destruct (C14_cost_groups Z 1 5%Z [] (fun x => [x]) (fun x => x) [2; 3; 1; 4; 1]%Z [[2; 3]%Z] [1; 4; 1]%Z []) as (x & t & E & H & _).
  - lia.
  - lia.
  - intros x Hx. split; [|exists []; reflexivity]. simpl in Hx. lia.
  - simpl. lia.
  - reflexivity.
  - exists x, t. split; [assumption|]. rewrite map_id in H. exact H.
Qed.
Example C14_sizes_instance : split_by_size 3 [0; 1; 2; 3; 4; 5] = [[0; 1]; [2; 3; 4]; [5]].
Proof. reflexivity. Qed.

(** One-qubit operations 0 (negation) and 1 (identity), and a two-qubit operation 2 (swap). *)
Definition ex_outs (o : nat) : nat := if o =? 2 then 2 else 1.
Definition ex_sem (o : nat) (vs : list bool) : list bool :=
  match o, vs with
  | 0, [a] => [negb a]
  | 2, [a; b] => [b; a]
  | 2, _ => [true; true]
  | _, [a] => [a]
  | _, _ => [true]
  end.
(** swap; then negation twice on the first wire; swap. *)
Definition ex_circuit : circuit nat :=
  {| cir_nodes := [(2, [(0, 0); (0, 1)]); (0, [(1, 0)]); (0, [(2, 0)]); (2, [(3, 0); (1, 1)])]; cir_outs := [(4, 1); (4, 0)] |}.
Lemma ex_wf : circuit_wf nat ex_outs 2 ex_circuit.
Proof.
  split.
  - intros [|[|[|[|[|k]]]]] o ws w H Hw; try discriminate; injection H as <- <-; simpl in Hw;
      repeat (destruct Hw as [<-|Hw]; [unfold available; simpl; first [lia | split; [lia|]; eexists; eexists; (split; [reflexivity|unfold ex_outs; simpl; lia])]|]); destruct Hw.
  - intros w [<-|[<-|[]]]; unfold available; simpl; split; try lia; eexists; eexists; (split; [reflexivity|unfold ex_outs; simpl; lia]).
Qed.
Lemma ex_once : reads_once nat ex_circuit 0 [1; 2; 1].
Proof. simpl. unfold outside_reads. simpl. repeat split; repeat constructor; simpl; intuition congruence. Qed.
Example C15_roundtrip_instance : exists g, split_reassemble nat ex_outs (fun _ l => rev l) 2 ex_circuit [1; 2; 1] = Some g /\
  g_ops nat g = [2; 0; 0; 2] /\ In (SOut 2 0, TNode 3 0) (g_edges nat g).
Proof.
  destruct (C15_roundtrip nat ex_outs 2 ex_circuit (fun _ l => rev l) [1; 2; 1]) as (g & E & O & H).
  - intros A l. apply Permutation_sym, Permutation_rev.
  - exact ex_wf.
  - reflexivity.
  - exact ex_once.
  - exists g. split; [exact E|]. split; [exact O|]. apply H. exists 2, [(3, 0); (1, 1)], (3, 0). auto.
Qed.
(** The two negations are replaced by a wire. *)
Definition ex_chunks : list (named_chunk nat) :=
  [extract nat ex_outs ex_circuit 0 1;
   {| c_body := {| b_nodes := []; b_outs := [FromIn 0] |}; c_ins := [(1, 0)]; c_outs := [(3, 0)] |};
   extract nat ex_outs ex_circuit 3 1].
Example C15_replacement_instance : exists g, reassemble nat (fun _ l => l) (inputs_of 2) (cir_outs nat ex_circuit) ex_chunks = Some g /\
  g_ops nat g = [2; 2] /\ computes nat bool ex_sem g [2; 2] [true; false] [false; true].
Proof.
  apply (C15_replacement nat ex_outs 2 ex_circuit (fun _ l => l) bool ex_sem [true; false] [false; true] [1; 2; 1] ex_chunks).
  - reflexivity.
  - exact ex_wf.
  - intros [|[|[|o]]] [|a [|b [|d vs]]]; reflexivity.
  - reflexivity.
  - reflexivity.
  - reflexivity.
  - exact ex_once.
  - repeat constructor; try (intros vs outs H; exact H).
    intros [|a vs] outs H; [discriminate|]. unfold run_body in *. simpl in *. rewrite negb_involutive in H. exact H.
Qed.
Print Assumptions C14_partition.
Print Assumptions C14_cost_groups.
Print Assumptions C14_sizes.
Print Assumptions C14_cost_bound_refuted.
Print Assumptions C14_full_refuted.
Print Assumptions C14_zero_refuted.
Print Assumptions C14_huge_bound_refuted.
Print Assumptions C15_roundtrip.
Print Assumptions C15_split_roundtrip.
Print Assumptions C15_replacement.
Print Assumptions C15_shared_wire_refuted.
