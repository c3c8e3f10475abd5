(** Properties C16 to C18: commutation of operations and the greedy commutation pass. *)
From Coq Require Import List Bool Arith Lia Permutation FunctionalExtensionality Reals Lra.
From Verif Require Import QComplex QState OpsModel GateSpec QSysSpec CommModel CommSpec CommAlg CommProofs CommSlices CommPass CommMain.
Import ListNotations.
Open Scope nat_scope.

(** ** C16: the Pauli commutation table is sound *)

(** An operation with an entry in the table commutes with that Pauli on that qubit: whatever
    the angle, or the outcome of the measurement. *)
Theorem C16_table : forall op qs f port q P, behaves op qs f -> nth_error qs port = Some q ->
  In (port, P) (qubit_commutation op) -> commute f (on q (pauli_mat P)).
Proof. exact C16_table_pf. Qed.

(** Two operations whose entries on every shared qubit are equal, or one of them the identity,
    commute. *)
Theorem C16_pairs : forall op1 qs1 f1 op2 qs2 f2, behaves op1 qs1 f1 -> behaves op2 qs2 f2 ->
  (forall q i j, nth_error qs1 i = Some q -> nth_error qs2 j = Some q ->
     exists p1 p2, In (i, p1) (qubit_commutation op1) /\ In (j, p2) (qubit_commutation op2) /\ (p1 = p2 \/ p1 = PI_ \/ p2 = PI_)) ->
  commute f1 f2.
Proof. exact C16_pairs_pf. Qed.

(** The test the pass uses for a pair of entries is exact: two Paulis pass it exactly if their
    matrices commute. *)
Theorem C16_commutes_with : forall p1 p2,
  commutes_with p1 p2 = true <-> mmul (pauli_mat p1) (pauli_mat p2) = mmul (pauli_mat p2) (pauli_mat p1).
Proof. exact C16_commutes_with_pf. Qed.

(** ** C17: greedy commutation preserves the meaning *)

(** On a circuit whose unknown operations are purely classical and that allocates no qubits:
    every ordering of the commands along the resulting wires does the same as the original
    circuit, for all angles and measurement outcomes. *)
Theorem C17_semantics_partial : forall optype n cs sem sl w k, circuit_ok optype n cs -> valuation optype n cs sem ->
  greedy_commutation optype n cs = Some (sl, w, k) ->
  forall L, Permutation L cs -> (forall q, on_wire q L = w q) -> forall psi, run_commands sem L psi = run_commands sem cs psi.
Proof. exact C17_semantics_partial_pf. Qed.

(** The resulting wires can be ordered: as far as the qubits go there is no cycle, and the
    commands are those of the original circuit. *)
Theorem C17_order_exists_partial : forall optype n cs sl w k, circuit_ok optype n cs ->
  (exists sem, valuation optype n cs sem) -> greedy_commutation optype n cs = Some (sl, w, k) ->
  exists L, Permutation L cs /\ forall q, on_wire q L = w q.
Proof. exact C17_order_exists_partial_pf. Qed.

(** No command moves to a later slice, none is dropped from the slices or held by two, and a
    reported count of 0 means that nothing changed. *)
Theorem C17_never_later_partial : forall optype n cs sl w k, circuit_ok optype n cs ->
  (exists sem, valuation optype n cs sem) -> greedy_commutation optype n cs = Some (sl, w, k) ->
  exists sl0, load_slices optype n cs = Some sl0 /\ length sl = length sl0 /\
    (forall c i q, slot sl i q = Some c -> exists i0 q0, i <= i0 /\ slot sl0 i0 q0 = Some c) /\
    (forall c, In c cs -> optype (c_node c) <> None -> forall q, In (Linear q) (c_inputs c) ->
       exists i, slot sl i q = Some c /\ forall j r, slot sl j r = Some c -> j = i) /\
    (k = 0 -> sl = sl0 /\ forall q, w q = on_wire q cs).
Proof. exact C17_never_later_partial_pf. Qed.

(** ** C18: which circuits the pass accepts *)

(** It neither panics nor fails on circuits that allocate no qubits and whose unknown
    operations are purely classical. *)
Theorem C18_total_partial : forall optype n cs, circuit_ok optype n cs -> (exists sem, valuation optype n cs sem) ->
  exists r, greedy_commutation optype n cs = Some r.
Proof. exact C18_total_partial_pf. Qed.

(** Such circuits have valuations: the hypothesis above is no restriction for circuits of
    gates, measurements, resets and frees. *)
Theorem C18_valuation_exists : forall optype n cs, circuit_ok optype n cs ->
  (forall c op, In c cs -> optype (c_node c) = Some op -> is_quantum op = true \/ In op [Measure; MeasureFree; Reset; QFree]) ->
  exists sem, valuation optype n cs sem.
Proof. exact C18_valuation_exists_pf. Qed.

(** It panics on a circuit that allocates a qubit. *)
Theorem C18_alloc_refuted : exists optype n cs, NoDup (map c_node cs) /\ respects_classical cs /\
  (forall c, In c cs -> optype (c_node c) = Some QAlloc) /\ cs <> [] /\ greedy_commutation optype n cs = None.
Proof. exact C18_alloc_refuted_pf. Qed.

(** It panics on a gate applied to a qubit that an unknown operation has allocated: the new
    qubit's index is not below the number of input qubits. *)
Theorem C18_fresh_qubit_refuted : exists optype n cs, NoDup (map c_node cs) /\ respects_classical cs /\
  map (fun c => (optype (c_node c), c_inputs c)) cs = [(None, []); (Some H, [Linear n])] /\ greedy_commutation optype n cs = None.
Proof. exact C18_fresh_qubit_refuted_pf. Qed.

(** It moves an operation across one it does not know: in X(1); CX(0,1); U(0); Z(0) the Z goes
    before the CX, so before U, and if U is an X the circuit has changed its meaning. *)
Theorem C18_opaque_refuted : exists optype n cs sl w k sem L psi,
  NoDup (map c_node cs) /\
  map (fun c => (c_node c, optype (c_node c), c_inputs c)) cs =
    [(1, Some X, [Linear 1]); (2, Some CX, [Linear 0; Linear 1]); (3, None, [Linear 0]); (4, Some Z, [Linear 0])] /\
  (forall c op qs, In c cs -> optype (c_node c) = Some op -> c_inputs c = map Linear qs -> behaves op qs (sem (c_node c))) /\
  (forall phi, sem 3 phi = on 0 MX phi) /\
  greedy_commutation optype n cs = Some (sl, w, k) /\ w 0 = [4; 2; 3] /\
  Permutation L cs /\ (forall q, on_wire q L = w q) /\ run_commands sem L psi <> run_commands sem cs psi.
Proof. exact C18_opaque_refuted_pf. Qed.

(** It can produce a cyclic graph: in X(1); CX(0,1); m := Measure(1); a := f(m); Rz(0, a) the
    Rz goes before the CX, which has to precede the measurement its angle depends on. *)
Theorem C18_classical_cycle_refuted : exists optype n cs sl w k,
  circuit_ok optype n cs /\ respects_classical cs /\ (exists sem, valuation optype n cs sem) /\
  greedy_commutation optype n cs = Some (sl, w, k) /\
  forall L, Permutation L cs -> (forall q, on_wire q L = w q) -> ~ respects_classical L.
Proof. exact C18_classical_cycle_refuted_pf. Qed.

(** ** Instances *)

(** X(1); CX(0,1); Z(0): the Z moves before the CX. *)
Definition ex_optype (m : nat) : option TketOp := match m with 1 => Some X | 2 => Some CX | 3 => Some Z | _ => None end.
Definition ex_cs : list com :=
  [{| c_node := 1; c_inputs := [Linear 1] |}; {| c_node := 2; c_inputs := [Linear 0; Linear 1] |}; {| c_node := 3; c_inputs := [Linear 0] |}].
Example C17_instance : circuit_ok ex_optype 2 ex_cs /\ (exists sem, valuation ex_optype 2 ex_cs sem) /\
  exists sl w, greedy_commutation ex_optype 2 ex_cs = Some (sl, w, 1) /\ w 0 = [3; 2] /\ w 1 = [1; 2].
Proof.
  assert (Ok : circuit_ok ex_optype 2 ex_cs).
  { split; [repeat constructor; simpl; intuition lia|]. intros c Hc. unfold command_ok.
    destruct Hc as [<-|[<-|[<-|[]]]]; simpl.
    - exists [1]. split; [exists []; reflexivity|]. split; [reflexivity|split; [discriminate|split; [repeat (constructor; [simpl; intuition lia|]); constructor|intros q Hq; simpl in Hq; lia]]].
    - exists [0; 1]. split; [exists []; reflexivity|]. split; [reflexivity|split; [discriminate|split; [repeat (constructor; [simpl; intuition lia|]); constructor|intros q Hq; simpl in Hq; lia]]].
    - exists [0]. split; [exists []; reflexivity|]. split; [reflexivity|split; [discriminate|split; [repeat (constructor; [simpl; intuition lia|]); constructor|intros q Hq; simpl in Hq; lia]]]. }
  split; [exact Ok|]. split.
  - apply (C18_valuation_exists ex_optype 2 ex_cs Ok). intros c op Hc Ho.
    destruct Hc as [<-|[<-|[<-|[]]]]; simpl in Ho; injection Ho as <-; simpl; auto.
  - destruct (greedy_commutation ex_optype 2 ex_cs) as [[[sl w] k]|] eqn:E; [|vm_compute in E; discriminate].
    assert (E2 : option_map (fun r => (snd (fst r), snd r)) (greedy_commutation ex_optype 2 ex_cs) = Some (w, k)) by (rewrite E; reflexivity).
    clear E. vm_compute in E2. injection E2 as <- <-. exists sl. eexists. split; [reflexivity|]. split; reflexivity.
Qed.
(** CX and Rz of any angle on its control commute, by the table. *)
Example C16_instance : forall a, commute (op_sem CX [0; 1] 0%R) (op_sem Rz [0] a).
Proof.
  intro a. eapply (C16_pairs CX [0; 1] _ Rz [0] _).
  - apply behaves_gate; [reflexivity|reflexivity|repeat constructor; simpl; intuition lia].
  - apply behaves_gate; [reflexivity|reflexivity|repeat constructor; simpl; intuition lia].
  - intros q i j Hi Hj. destruct j as [|[|j]]; simpl in Hj; try discriminate. injection Hj as <-.
    destruct i as [|[|[|i]]]; simpl in Hi; try discriminate. exists PZ, PZ. simpl. auto.
Qed.

Print Assumptions C16_table.
Print Assumptions C16_pairs.
Print Assumptions C16_commutes_with.
Print Assumptions C17_semantics_partial.
Print Assumptions C17_order_exists_partial.
Print Assumptions C17_never_later_partial.
Print Assumptions C18_total_partial.
Print Assumptions C18_valuation_exists.
Print Assumptions C18_alloc_refuted.
Print Assumptions C18_fresh_qubit_refuted.
Print Assumptions C18_opaque_refuted.
Print Assumptions C18_classical_cycle_refuted.
