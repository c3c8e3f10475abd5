(** Properties of the circuit hash (properties C20 and C48). *)
From Coq Require Import List Bool Arith Lia Permutation.
From Verif Require Import TopoSpec TopoModel TopoProofs HashSpec HashModel HashProofs HashThm HashMain.
Import ListNotations.

(** ** C20: the same circuit with other node numbers, another order of siblings and another walk has
    the same hash: one succeeds with [h] iff the other does. *)
Theorem C20_invariant : forall (Op H : Type) (is_dfg : Op -> bool) (mix : list (H + Op) -> H) (lhash : option H -> nat -> nat -> H) (xor : H -> H -> H) (zero : H),
  (forall a b, xor a b = xor b a) -> (forall a b c, xor a (xor b c) = xor (xor a b) c) ->
  forall walk1 walk2 : list (node Op) -> option (list nat),
  (forall ks, NoDup (map nid ks) -> exists l, walk1 ks = Some l /\ walk_of (map nid ks) (region_preds ks) l) ->
  (forall ks, NoDup (map nid ks) -> exists l, walk2 ks = Some l /\ walk_of (map nid ks) (region_preds ks) l) ->
  forall f, (forall x y : nat, f x = f y -> x = y) -> forall n n', well_numbered n -> renumbered f n n' ->
  forall h, circuit_hash Op H is_dfg mix lhash xor zero walk1 n = Ok h <-> circuit_hash Op H is_dfg mix lhash xor zero walk2 n' = Ok h.
Proof. exact C20_invariant_pf. Qed.

(** ** C20: petgraph's walk is a walk as required: it terminates, and visits exactly the nodes that are
    not on or after a cycle, each once and after its predecessors. *)
Theorem C20_topo : forall (Op : Type) (ks : list (node Op)), NoDup (map nid ks) ->
  exists l, topo_walk Op ks = Some l /\ walk_of (map nid ks) (region_preds ks) l /\ forall n, In n l <-> grounded (map nid ks) (region_preds ks) n.
Proof. exact C20_topo_pf. Qed.

(** ** C20: there is a hash iff the output (of the region and of every nested region that is visited)
    is not on or after a cycle, and everything with children is a dataflow parent. *)
Theorem C20_total : forall (Op H : Type) (is_dfg : Op -> bool) (mix : list (H + Op) -> H) (lhash : option H -> nat -> nat -> H) (xor : H -> H -> H) (zero : H),
  forall walk : list (node Op) -> option (list nat),
  (forall ks, NoDup (map nid ks) -> exists l, walk ks = Some l /\ walk_of (map nid ks) (region_preds ks) l) ->
  forall n, well_numbered n -> ((exists h, circuit_hash Op H is_dfg mix lhash xor zero walk n = Ok h) <-> hashable is_dfg n).
Proof. exact C20_total_pf. Qed.

(** ** C20: with hash functions without collisions, and one link per input port, equal hashes mean that
    the outputs compute the same: same operations, fed by the same ports, down to the inputs, in
    nested regions too. Nodes outside of the region are not distinguished. *)
Theorem C20_faithful : forall (Op H : Type) (is_dfg : Op -> bool) (mix : list (H + Op) -> H) (lhash : option H -> nat -> nat -> H) (xor : H -> H -> H) (zero : H),
  (forall a b, mix a = mix b -> a = b) -> (forall a p q a' p' q', lhash a p q = lhash a' p' q' -> a = a' /\ p = p' /\ q = q') -> (forall a, xor a zero = a) ->
  forall walk : list (node Op) -> option (list nat),
  (forall ks, NoDup (map nid ks) -> exists l, walk ks = Some l /\ walk_of (map nid ks) (region_preds ks) l) ->
  forall n n' h, well_numbered n -> well_numbered n' -> single_links n -> single_links n' ->
  circuit_hash Op H is_dfg mix lhash xor zero walk n = Ok h -> circuit_hash Op H is_dfg mix lhash xor zero walk n' = Ok h -> same_region (kids n) (kids n').
Proof. exact C20_faithful_pf. Qed.

(** ** C48: but not all operations count, whatever the hash functions: what does not feed the output
    (a qubit that is allocated, used and freed) can be replaced by anything. *)
Theorem C48_dead_refuted : forall (Op H : Type) (is_dfg : Op -> bool) (mix : list (H + Op) -> H) (lhash : option H -> nat -> nat -> H) (xor : H -> H -> H) (zero : H)
  (dfg inp out alloc free : Op), is_dfg dfg = true -> forall o1 o2 : Op, ~ In o1 [dfg; inp; out; alloc; free; o2] ->
  exists n n' h, well_numbered n /\ well_numbered n' /\ circuit_hash Op H is_dfg mix lhash xor zero (topo_walk Op) n = Ok h /\
    circuit_hash Op H is_dfg mix lhash xor zero (topo_walk Op) n' = Ok h /\ In o1 (ops n) /\ ~ In o1 (ops n').
Proof. exact C48_dead_refuted_pf. Qed.

(** ** C48: nor does it matter which node outside of the region is used: calls of different functions, or
    constants defined outside, have the same hash. *)
Theorem C48_outside_refuted : forall (Op H : Type) (is_dfg : Op -> bool) (mix : list (H + Op) -> H) (lhash : option H -> nat -> nat -> H) (xor : H -> H -> H) (zero : H)
  (dfg modul inp out call fun1 fun2 : Op), is_dfg dfg = true -> fun1 <> fun2 ->
  exists module n n' h, nop module = modul /\ well_numbered module /\ kids module = [n; n'] ++ [Node 3 fun1 [] []; Node 4 fun2 [] []] /\
    (exists a b, n = Node 1 dfg [] [a; b; Node 7 call [[(5, 0)]; [(3, 0)]] []]) /\ (exists a b, n' = Node 2 dfg [] [a; b; Node 10 call [[(8, 0)]; [(4, 0)]] []]) /\
    circuit_hash Op H is_dfg mix lhash xor zero (topo_walk Op) n = Ok h /\ circuit_hash Op H is_dfg mix lhash xor zero (topo_walk Op) n' = Ok h.
Proof. exact C48_outside_refuted_pf. Qed.

(** ** C48: two links of one port (order edges) from nodes with equal hashes cancel out: two of the same
    effect ordered before the output look like none. *)
Theorem C48_xor_refuted : forall (Op H : Type) (is_dfg : Op -> bool) (mix : list (H + Op) -> H) (lhash : option H -> nat -> nat -> H) (xor : H -> H -> H) (zero : H)
  (dfg inp out effect : Op), is_dfg dfg = true -> (forall a, xor a zero = a) -> (forall a, xor a a = zero) -> ~ In effect [dfg; inp; out] ->
  exists n n' h, well_numbered n /\ well_numbered n' /\ circuit_hash Op H is_dfg mix lhash xor zero (topo_walk Op) n = Ok h /\
    circuit_hash Op H is_dfg mix lhash xor zero (topo_walk Op) n' = Ok h /\ ~ In effect (ops n) /\
    exists a b c d, kids n' = [a; b; c; d] /\ nop c = effect /\ nop d = effect /\ In c (kids n') /\ links b = [[(nid c, 0); (nid d, 0)]].
Proof. exact C48_xor_refuted_pf. Qed.

(** ** Instances: operations are numbers, 9 is a dataflow parent *)
Inductive tree : Type := TZero | TMix (l : list (tree + nat)) | TLink (h : option tree) (p q : nat).
Definition ex_circuit : node nat := Node 0 9 [] [Node 1 0 [] []; Node 2 1 [[(4, 0)]; [(4, 1)]] []; Node 3 5 [[(1, 0)]] []; Node 4 6 [[(3, 0)]; [(1, 1)]] []].
Definition ex_circuit2 : node nat := Node 0 9 [] [Node 10 0 [] []; Node 20 1 [[(40, 0)]; [(40, 1)]] []; Node 40 6 [[(30, 0)]; [(10, 1)]] []; Node 30 5 [[(10, 0)]] []].
Example ex_wn : well_numbered ex_circuit.
Proof. constructor; [repeat constructor; simpl; intuition discriminate|repeat constructor]. Qed.
Example ex_renumbered : renumbered (fun x => 10 * x) ex_circuit ex_circuit2.
Proof.
  apply (Renumbered nat (fun x => 10 * x) 0 9 [] _ [] [Node 10 0 [] []; Node 20 1 [[(40, 0)]; [(40, 1)]] []; Node 30 5 [[(10, 0)]] []; Node 40 6 [[(30, 0)]; [(10, 1)]] []]).
  - constructor.
  - constructor; [|constructor; [|constructor; [|constructor; [|constructor]]]].
    + apply (Renumbered nat (fun x => 10 * x) 1 0 [] [] [] [] []); constructor.
    + apply (Renumbered nat (fun x => 10 * x) 2 1 [[(4, 0)]; [(4, 1)]] [] [[(40, 0)]; [(40, 1)]] [] []); repeat constructor.
    + apply (Renumbered nat (fun x => 10 * x) 3 5 [[(1, 0)]] [] [[(10, 0)]] [] []); repeat constructor.
    + apply (Renumbered nat (fun x => 10 * x) 4 6 [[(3, 0)]; [(1, 1)]] [] [[(30, 0)]; [(10, 1)]] [] []); repeat constructor.
  - reflexivity.
  - apply perm_skip, perm_skip, perm_swap.
Qed.
Example ex_C20 : forall h, circuit_hash nat nat (Nat.eqb 9) (fun l => length l) (fun _ p q => 3 * p + q) Nat.lxor 0 (topo_walk nat) ex_circuit = Ok h <->
  circuit_hash nat nat (Nat.eqb 9) (fun l => length l) (fun _ p q => 3 * p + q) Nat.lxor 0 (topo_walk nat) ex_circuit2 = Ok h.
Proof.
  apply (C20_invariant nat nat (Nat.eqb 9) (fun l => length l) (fun _ p q => 3 * p + q) Nat.lxor 0 Nat.lxor_comm (fun a b c => eq_sym (Nat.lxor_assoc a b c)) (topo_walk nat) (topo_walk nat) (topo_walk_ok nat) (topo_walk_ok nat) (fun x => 10 * x)); [intros; lia|apply ex_wn|apply ex_renumbered].
Qed.
(** The hash exists; with trees as hashes it is the tree of the output. *)
Example ex_tree : circuit_hash nat tree (Nat.eqb 9) TMix TLink (fun a _ => a) TZero (topo_walk nat) ex_circuit =
  Ok (let i := TMix [inr 0] in let h := TMix [inr 5; inl (TLink (Some i) 0 0)] in let c := TMix [inr 6; inl (TLink (Some h) 0 0); inl (TLink (Some i) 1 1)] in
      TMix [inr 1; inl (TLink (Some c) 0 0); inl (TLink (Some c) 1 1)]).
Proof. vm_compute. reflexivity. Qed.
Example ex_faithful : same_region (kids ex_circuit) (kids ex_circuit2).
Proof.
  apply (C20_faithful nat tree (Nat.eqb 9) TMix TLink (fun a _ => a) TZero) with (walk := topo_walk nat) (h := (let i := TMix [inr 0] in let h := TMix [inr 5; inl (TLink (Some i) 0 0)] in let c := TMix [inr 6; inl (TLink (Some h) 0 0); inl (TLink (Some i) 1 1)] in
      TMix [inr 1; inl (TLink (Some c) 0 0); inl (TLink (Some c) 1 1)])).
  - intros a b E. injection E as E. assumption.
  - intros a p q a' p' q' E. injection E as -> -> ->. auto.
  - reflexivity.
  - apply topo_walk_ok.
  - apply ex_wn.
  - constructor; [repeat constructor; simpl; intuition discriminate|repeat constructor].
  - repeat constructor.
  - repeat constructor.
  - vm_compute. reflexivity.
  - vm_compute. reflexivity.
Qed.
(** Swapping the qubits of the last gate gives another tree; a cycle before the output gives an error. *)
Example ex_swapped : circuit_hash nat tree (Nat.eqb 9) TMix TLink (fun a _ => a) TZero (topo_walk nat) ex_circuit <>
  circuit_hash nat tree (Nat.eqb 9) TMix TLink (fun a _ => a) TZero (topo_walk nat) (Node 0 9 [] [Node 1 0 [] []; Node 2 1 [[(4, 1)]; [(4, 0)]] []; Node 3 5 [[(1, 0)]] []; Node 4 6 [[(1, 1)]; [(3, 0)]] []]).
Proof. vm_compute. discriminate. Qed.
Example ex_cyclic : circuit_hash nat tree (Nat.eqb 9) TMix TLink (fun a _ => a) TZero (topo_walk nat) (Node 0 9 [] [Node 1 0 [] []; Node 2 1 [[(4, 0)]] []; Node 3 5 [[(4, 0)]] []; Node 4 6 [[(3, 0)]] []]) = CyclicCircuit.
Proof. vm_compute. reflexivity. Qed.
Example ex_not_dfg : circuit_hash nat tree (Nat.eqb 9) TMix TLink (fun a _ => a) TZero (topo_walk nat) (Node 0 9 [] [Node 1 0 [] []; Node 2 1 [[(3, 0)]] []; Node 3 8 [[(1, 0)]] [Node 4 7 [] []]]) = NotADfg.
Proof. vm_compute. reflexivity. Qed.

Print Assumptions C20_invariant.
Print Assumptions C20_topo.
Print Assumptions C20_total.
Print Assumptions C20_faithful.
Print Assumptions C48_dead_refuted.
Print Assumptions C48_outside_refuted.
Print Assumptions C48_xor_refuted.
