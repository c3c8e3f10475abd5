(** Properties of the pipeline: entry points, the order of operations. *)
From Coq Require Import Ascii String List Arith Bool ZArith Lia.
From Verif Require Import PipeModel PipeSpec PipeProofs PipeMain.
Import ListNotations.

(** ** C99: the entry point of a program is the function that is called *)

(** After the pipeline has succeeded, the entry point is the function that it was before, or the
    only main of a module; whatever the passes do. *)
Theorem C99_restored : forall o p h h' n,
  starts h n -> run_qsystem o p h = (h', true) -> h_entry h' = ENode n.
Proof. exact C99_restored_pf. Qed.

(** Compiling a program whose entry point is a function without inputs, or which is a module
    with one main, gives a wrapper that calls the function of the entry point between setup and
    teardown, if the passes succeed and keep this function.  Missing: that a main has no inputs
    (see below). *)
Theorem C99_called_partial : forall p h n f i,
  starts h n -> lookup n h = Some (FuncDefn f i) ->
  (h_entry h = ENode n -> i = 0) -> (h_entry h = EModule -> f = "main"%string) ->
  (forall q, In q (sequence default_options p (ENode n)) -> keeps n f i q) ->
  keeps n f i (p_inline p) ->
  exists h', compile p h = (h', Some [Setup; CallFn 0 i n; Teardown]).
Proof. exact C99_called_partial_pf. Qed.

(** Names of functions are different for different nodes and for different names. *)
Theorem C99_names : forall f g n m, name_func f n = name_func g m -> f = g /\ n = m.
Proof. exact C99_names_pf. Qed.

(** A program is refused, before any pass, exactly if its entry point is not a function
    definition without inputs and not a module with exactly one main. *)
Theorem C99_refused : forall h,
  get_entry_point_name h = None <->
  ((forall n f, h_entry h = ENode n -> lookup n h <> Some (FuncDefn f 0))
   /\ (h_entry h = EModule -> forall n, ~ starts h n)).
Proof. exact C99_refused_pf. Qed.

(** False of mains with inputs: a module whose main has inputs is accepted, and the function is
    called without them. *)
Theorem C99_inputs_refuted : forall i p,
  (forall q, In q (sequence default_options p (ENode 1)) -> keeps 1 "main" (S i) q) ->
  keeps 1 "main" (S i) (p_inline p) ->
  exists h', compile p {| h_children := [(1, FuncDefn "main" (S i))]; h_entry := EModule |}
             = (h', Some [Setup; CallFn 0 (S i) 1; Teardown]).
Proof. exact C99_inputs_refuted_pf. Qed.

(** "The entry point is restored" is false if a pass fails: it stays at the module, so that a
    program whose entry point was another function has main as its entry point afterwards. *)
Theorem C99_failure_refuted : forall o p,
  (forall h, p_lower p h = (h, false)) ->
  (forall h, p_mono p h = (h, true)) -> (forall e h, p_dead p e h = (h, true)) ->
  exists h h', h_entry h = ENode 2 /\ starts h 2
    /\ run_qsystem o p h = (h', false) /\ h_entry h' = EModule /\ starts h' 1.
Proof. exact C99_failure_refuted_pf. Qed.

(** ** C100: operations are ordered by their ranks *)

(** A region without cycles has an order: every node once, after its predecessors, always one of
    the least rank that can be taken. *)
Theorem C100_total : forall g, acyclic g ->
  exists l, force_order (length (r_nodes g)) g (r_nodes g) = Some l /\ greedy g l.
Proof. exact C100_total_pf. Qed.

(** Reads of futures come as late as possible: whatever comes after one is a read or depends on
    one that was left. *)
Theorem C100_reads : forall g l pre r post x, greedy g l -> l = pre ++ r :: post ->
  r_op g r = FutRead -> In x post ->
  r_op g x = FutRead \/ exists y, depends g x y /\ In y (r :: post) /\ r_op g y = FutRead.
Proof. exact C100_reads_pf. Qed.

(** Quantum operations come as early as possible: one that comes after a classical operation or
    a read depends on a classical operation or a read that was left at that time and could be
    taken. *)
Theorem C100_quantum : forall g l pre c post q, greedy g l -> l = pre ++ c :: post ->
  classical (r_op g c) \/ r_op g c = FutRead -> In q post -> quantum (r_op g q) \/ alloc (r_op g q) ->
  exists z, depends g q z /\ In z (c :: post) /\ free_in g pre z
            /\ (classical (r_op g z) \/ r_op g z = FutRead).
Proof. exact C100_quantum_pf. Qed.

(** Qubits are freed before anything else that can be done: a free that comes after another
    operation depends on an operation that was left, could be taken, and is no free. *)
Theorem C100_frees : forall g l pre x post f, greedy g l -> l = pre ++ x :: post ->
  ~ free (r_op g x) -> In f post -> free (r_op g f) ->
  exists z, depends g f z /\ In z (x :: post) /\ free_in g pre z /\ ~ free (r_op g z).
Proof. exact C100_frees_pf. Qed.

(** Allocations wait for quantum operations that can be done. *)
Theorem C100_allocs_partial : forall g l pre a post q, greedy g l -> l = pre ++ a :: post ->
  alloc (r_op g a) -> In q post -> quantum (r_op g q) ->
  exists z, depends g q z /\ In z (a :: post) /\ free_in g pre z /\ ~ quantum (r_op g z).
Proof. exact C100_allocs_partial_pf. Qed.

(** "Allocations come as late as possible" is false: they come before classical operations.  For
    all n there is a region of n qubits, each allocated, turned by an angle, and freed, which has
    an order that uses one qubit at a time, while every order that is made uses n. *)
Theorem C100_late_refuted : forall n, exists g,
  (exists l, linear g l /\ at_most g l 1) /\ (forall l, greedy g l -> uses g l (Z.of_nat n)).
Proof. exact C100_late_refuted_pf. Qed.

(** ** Instances: the hypotheses are met *)
Definition ok : pass := fun h => (h, true).
Definition all_ok : passes :=
  {| p_mono := ok; p_dead := fun _ => ok; p_lower := ok; p_bools := ok; p_drops := ok;
     p_arrays := ok; p_inline := ok; p_fold := ok; p_order := ok |}.

Example keeps_instance : forall n f i q, In q (sequence default_options all_ok (ENode n)) ->
  keeps n f i q.
Proof.
  intros n f i q hq h hl. simpl in hq. exists h. split; [ | exact hl ].
  repeat (destruct hq as [ <- | hq ]; [ reflexivity | ]). destruct hq.
Qed.

Example compile_instance :
  snd (compile all_ok {| h_children := [(1, FuncDecl "f"); (2, FuncDefn "main" 0); (4, FuncDefn "g" 1)];
                         h_entry := EModule |}) = Some [Setup; CallFn 0 0 2; Teardown].
Proof. reflexivity. Qed.

Example failure_instance : exists p, (forall h, p_lower p h = (h, false))
  /\ (forall h, p_mono p h = (h, true)) /\ (forall e h, p_dead p e h = (h, true)).
Proof.
  exists {| p_mono := ok; p_dead := fun _ => ok; p_lower := fun h => (h, false); p_bools := ok;
            p_drops := ok; p_arrays := ok; p_inline := ok; p_fold := ok; p_order := ok |}.
  repeat split.
Qed.

(** The region of the test (lib.rs:250-300): a call, a constant, a reset, a rotation by the
    constant, a lazy measurement and two reads. *)
Definition g0 : region :=
  {| r_nodes := [0; 1; 2; 3; 4; 5; 6];
     r_op := fun n => match n with
                      | 0 | 1 => Other | 2 | 3 | 4 => QsOther | _ => FutRead end;
     r_deps := fun n => match n with
                        | 3 => [1; 2] | 4 => [3] | 5 | 6 => [4] | _ => [] end |}.
Example order_instance : force_order 7 g0 (r_nodes g0) = Some [2; 0; 1; 3; 4; 5; 6].
Proof. reflexivity. Qed.

Example acyclic_instance : acyclic g0.
Proof.
  exists [2; 0; 1; 3; 4; 5; 6]. destruct (force_order_inv _ _ _ _ order_instance) as (h1 & h2 & h3).
  split; [ exact h1 | split; [ exact h2 | ] ].
  intros pre n post e p hp hp'. exact (proj1 (h3 pre n post e) p hp hp').
Qed.

Example late_instance : force_order 7 (angles 2) (r_nodes (angles 2)) = Some [1; 4; 0; 2; 3; 5; 6]
  /\ live (angles 2) [1; 4] = 2%Z.
Proof. split; reflexivity. Qed.

Print Assumptions C99_restored.
Print Assumptions C99_called_partial.
Print Assumptions C99_names.
Print Assumptions C99_refused.
Print Assumptions C99_inputs_refuted.
Print Assumptions C99_failure_refuted.
Print Assumptions C100_total.
Print Assumptions C100_reads.
Print Assumptions C100_quantum.
Print Assumptions C100_frees.
Print Assumptions C100_allocs_partial.
Print Assumptions C100_late_refuted.
