(** Properties of the modifier resolver's bookkeeping. *)
From Coq Require Import List Arith Bool Lia NArith Permutation.
From Verif Require Import ResolveModel ResolveSpec ResolveWire ResolvePorts ResolveProofs ResolveMain.
Import ListNotations.

(** ** C27: chains of modifiers

    A traced chain has the sum of the controls, their groups in the order of the chain, and
    the parity of the daggers; pushed on the modifiers of the surrounding function it stands
    for the chain applied first and those modifiers applied to the result.  Whatever can be
    daggered and controlled is meant, and the laws are those of both. *)
Theorem C27 : forall chain outer,
  let c := trace_chain outer chain in
  control c = control outer + total (sizes chain) /\
  accum_ctrl c = accum_ctrl outer ++ sizes chain /\
  dagger c = xorb (dagger outer) (odd_daggers chain) /\
  (control outer = total (accum_ctrl outer) -> control c = total (accum_ctrl c)) /\
  (~ In Power chain -> forall (A : algebra) (u : op A),
     same A (stands_for A c u) (stands_for A outer (denote A chain u)) /\
     same A (stands_for A (trace_chain no_modifier chain) u) (denote A chain u)).
Proof. exact C27_pf. Qed.

(** Powers are only counted modulo 2, and nothing else depends on them: two of them are
    resolved like none. *)
Theorem C27_powers : forall c a b,
  trace_chain c (a ++ Power :: Power :: b) = trace_chain c (a ++ b) /\
  control (trace_chain c (a ++ Power :: b)) = control (trace_chain c (a ++ b)) /\
  accum_ctrl (trace_chain c (a ++ Power :: b)) = accum_ctrl (trace_chain c (a ++ b)) /\
  dagger (trace_chain c (a ++ Power :: b)) = dagger (trace_chain c (a ++ b)).
Proof. exact C27_powers_pf. Qed.

(** The metadata of a modified function is read back as flags that satisfy the modifiers it
    was made for, and every modifier that the old function's flags satisfied. *)
Theorem C27_flags : forall c old,
  (forall f, from_metadata (Some (set_metadata f)) = Some f) /\
  exists f, from_metadata (Some (new_metadata c old)) = Some f /\ satisfies f c = true /\
    (forall g c', from_metadata old = Some g -> satisfies g c' = true -> satisfies f c' = true) /\
    (forall c', satisfies f c' = true ->
       (control c' > 0 -> control c > 0 \/ exists g, from_metadata old = Some g /\ f_control g = true) /\
       (dagger c' = true -> dagger c = true \/ exists g, from_metadata old = Some g /\ f_dagger g = true) /\
       (power c' = true -> power c = true \/ exists g, from_metadata old = Some g /\ f_power g = true)).
Proof. exact C27_flags_pf. Qed.

(** ** C28: control arrays

    Packing the control qubits and unpacking them again gives them back, the arrays have the
    sizes of the chain's groups, and nothing fails, exactly when there are as many control
    qubits as the groups need; taking and giving back a control keeps their number. *)
Theorem C28_pack : forall (wire : Type) sz (cs : list wire), 
  (total sz <= length cs <-> exists l, pack_controls wire sz cs = Some l) /\
  (length cs = total sz -> exists l, pack_controls wire sz cs = Some l /\ map (@length _) l = sz /\
     concat l = cs /\ unpack_controls wire sz l = Some cs) /\
  (forall c w, pop_control wire (push_control wire (c, cs) w) = Some (w, (c, cs))) /\
  (forall c w s, control c = length cs -> pop_control wire (c, cs) = Some (w, s) ->
     control (fst s) = length (snd s) /\ cs = snd s ++ [w] /\ push_control wire s w = (c, cs)).
Proof. exact C28_pack_pf. Qed.

(** The new signature has the type that the modifiers declare, and its arrays are those that
    the body unpacks, when the sizes of the groups read the same in both directions, and in
    no other case.  Missing: all other chains, for which both claims are false. *)
Theorem C28_partial : forall chain r,
  let c := trace_chain no_modifier chain in
  (modify_row c false r = declared_row chain r <-> sizes chain = rev (sizes chain)) /\
  (unpack_types (accum_ctrl c) (modify_row c false r) = true <-> sizes chain = rev (sizes chain)) /\
  (forall n, (forall m, In m (sizes chain) -> m = n) -> sizes chain = rev (sizes chain)) /\
  modify_row c true r = repeat Qubit (total (sizes chain)) ++ r.
Proof. exact C28_partial_pf. Qed.

(** An indirect call of a function under a chain of modifiers, inside a function that is
    itself modified: the new loader has the type that the new call expects when the groups
    of both chains line up. *)
Theorem C28_indirect_partial : forall outer inner r,
  (indirect_loaded (trace_chain no_modifier outer) inner r
    = indirect_expected (trace_chain no_modifier outer) (declared_row inner r) <->
   rev (sizes inner) ++ rev (sizes outer) = rev (sizes outer) ++ sizes inner) /\
  (sizes inner = [] -> indirect_loaded (trace_chain no_modifier outer) inner r
    = indirect_expected (trace_chain no_modifier outer) (declared_row inner r)).
Proof. exact C28_indirect_partial_pf. Qed.

(** A control by one qubit of a control by two qubits: the new function takes the array of
    two first, contrary to what the modifiers declare and the body unpacks.  An indirect call
    of a function controlled by one qubit in a function controlled by two, likewise. *)
Theorem C28_refuted :
  let chain := [Control 1; Control 2] in
  let c := trace_chain no_modifier chain in
  declared_row chain [Qubit] = [QArray 1; QArray 2; Qubit] /\
  modify_row c false [Qubit] = [QArray 2; QArray 1; Qubit] /\
  unpack_types (accum_ctrl c) (modify_row c false [Qubit]) = false /\
  indirect_loaded (trace_chain no_modifier [Control 2]) [Control 1] [Qubit] <>
    indirect_expected (trace_chain no_modifier [Control 2]) (declared_row [Control 1] [Qubit]).
Proof. exact C28_refuted_pf. Qed.

(** ** C29: correspondence of ports

    The wiring succeeds for all rows; each old port has exactly one new port, and the new
    ports are distinct and fill the two ranges after the controls. *)
Theorem C29_bijection : forall (ty : Type) (quantum : ty -> bool) dg ins outs a b n, exists m,
  wire_inout quantum dg ins outs a b n = Some m /\
  Permutation (map fst m) (ports a (length ins) b (length outs)) /\
  Permutation (map snd m)
    (ports (a + n) (if dg then number (fun t => negb (quantum t)) ins + number quantum outs else length ins)
           (b + n) (if dg then number (fun t => negb (quantum t)) outs + number quantum ins else length outs)) /\
  NoDup (map fst m) /\ NoDup (map snd m).
Proof. exact C29_bijection_pf. Qed.

(** Without a dagger each port keeps its side and moves by the number of controls. *)
Theorem C29_shift : forall (ty : Type) (quantum : ty -> bool) ins outs a b n m,
  wire_inout quantum false ins outs a b n = Some m ->
  forall p p', In (p, p') m <-> In p (ports a (length ins) b (length outs)) /\ p' = (fst p, snd p + n).
Proof. exact C29_shift_pf. Qed.

(** Under a dagger the quantum ports change sides, and only they do.  So the ends of an old
    edge never get the same side: joining them succeeds, and the new edge is reversed if and
    only if it is quantum and there is a dagger. *)
Theorem C29_edges : forall (ty : Type) (quantum : ty -> bool) dg ins outs a b n m ins' outs' a' b' n' m' t i j p q,
  wire_inout quantum dg ins outs a b n = Some m ->
  wire_inout quantum dg ins' outs' a' b' n' = Some m' ->
  nth_error outs i = Some t -> nth_error ins' j = Some t ->
  In ((Outgoing, b + i), p) m -> In ((Incoming, a' + j), q) m' ->
  connect q p = Some (if dg && quantum t then (q, p) else (p, q)).
Proof. exact C29_edges_pf. Qed.

(** The wiring outside a region and the wiring of its input and output nodes agree: an old
    port corresponds to a new one outside if and only if the ports of the same numbers do
    inside. *)
Theorem C29_inside : forall (ty : Type) (quantum : ty -> bool) dg ins outs a b n m m',
  wire_node_inout quantum dg ins outs a b n = Some m ->
  wire_body quantum dg ins outs a b n = Some m' ->
  forall p p', In (p, p') m <-> In (across p, across p') m'.
Proof. exact C29_inside_pf. Qed.

(** With a dagger, when the runs of quantum types of both rows are the same: classical ports
    keep their numbers, and the k-th quantum input is exchanged with the k-th quantum output,
    which has the same type; so the new node can have the old signature.  This covers what a
    modifier accepts: some inputs which are also the outputs, and classical inputs after them.
    Missing: other rows, for which the claim is false. *)
Theorem C29_dagger_partial : forall (ty : Type) (quantum : ty -> bool) ins outs a b n m,
  wire_inout quantum true ins outs a b n = Some m ->
  (runs quantum ins = runs quantum outs \/
   (exists others, ins = outs ++ others /\ forall t, In t others -> quantum t = false)) ->
  forall p p', In (p, p') m -> daggered quantum ins outs a b n p p'.
Proof. exact C29_dagger_partial_pf. Qed.

(** The example in the documentation of [wire_node_inout] is not what the code does: the
    array, which should come after the integer, comes before it.  For a node whose signature
    is kept, inputs qubit, integer, qubit and outputs qubit, qubit: the second input of the
    new node has a quantum port, but the type of an integer. *)
Theorem C29_dagger_refuted :
  let quantum := fun t => match t with Other _ => false | _ => true end in
  (exists m, wire_inout quantum true [Qubit; Other 0; Qubit; Qubit; Other 0] [Qubit; QArray 5] 0 0 0 = Some m /\
     ~ In ((Outgoing, 1), (Incoming, 2)) m /\ In ((Outgoing, 1), (Incoming, 1)) m /\
     In ((Incoming, 1), (Incoming, 2)) m) /\
  (exists m, wire_inout quantum true [Qubit; Other 0; Qubit] [Qubit; Qubit] 0 0 0 = Some m /\
     In ((Outgoing, 1), (Incoming, 1)) m /\
     type_at [Qubit; Other 0; Qubit] [Qubit; Qubit] (Outgoing, 1) = Some Qubit /\
     type_at [Qubit; Other 0; Qubit] [Qubit; Qubit] (Incoming, 1) = Some (Other 0)).
Proof. exact C29_dagger_refuted_pf. Qed.

(** A nested DFG, CFG or Call is wired with the rows of the modified signature, where the
    types of the controls come first.  The ports of the old node get the right new ports when
    there is no dagger, or no control, or no classical type.  Missing: the other cases, for
    which the claim is false. *)
Theorem C29_nested_partial : forall (ty : Type) (quantum : ty -> bool) dg controls ins outs m m',
  forallb quantum controls = true ->
  wire_nested quantum dg controls ins outs = Some m ->
  wire_node_inout quantum dg ins outs 0 0 (length controls) = Some m' ->
  (dg = false \/ controls = [] \/ forallb quantum (ins ++ outs) = true) ->
  forall p p', type_at ins outs p <> None -> (In (p, p') m <-> In (p, p') m').
Proof. exact C29_nested_partial_pf. Qed.

(** One control and a dagger on a nested region with inputs integer, qubit and output qubit:
    the integer input gets an output port. *)
Theorem C29_nested_refuted :
  let quantum := fun t => match t with Other _ => false | _ => true end in
  exists m m', wire_nested quantum true [Qubit] [Other 0; Qubit] [Qubit] = Some m /\
    wire_body quantum true [Other 0; Qubit] [Qubit] 0 0 1 = Some m' /\
    In ((Incoming, 0), (Outgoing, 1)) m /\
    In (across (Incoming, 0), across (Incoming, 1)) m' /\
    ~ In (across (Incoming, 0), across (Outgoing, 1)) m'.
Proof. exact C29_nested_refuted_pf. Qed.

(** ** C53: controls of loops and conditionals

    The control qubits of a new conditional, and its old inputs, go to ports of their types.
    For a tail loop they do if and only if there is no control or all values that the loop
    carries besides its own inputs are single qubits.  Missing: the other loops, for which
    the claim is false. *)
Theorem C53_partial : forall just_inputs rest n,
  ((forall i, i < n ->
      nth_error (loop_inputs just_inputs rest n) (loop_control_port just_inputs i) = Some Qubit) /\
   (forall i t, nth_error (just_inputs ++ rest) i = Some t ->
      nth_error (loop_inputs just_inputs rest n) (loop_port just_inputs n i) = Some t) <->
   (n = 0 \/ rest = repeat Qubit (length rest))) /\
  (forall (tag : type) others, 
     (forall i, i < n -> nth_error (tag :: cond_inputs others n) (cond_control_port i) = Some Qubit) /\
     (forall (ty : type -> bool) outs m i t p, wire_node_inout ty false others outs 1 0 n = Some m ->
        nth_error others i = Some t -> In ((Incoming, 1 + i), p) m ->
        fst p = Incoming /\ nth_error (tag :: cond_inputs others n) (snd p) = Some t)).
Proof. exact C53_partial_pf. Qed.

(** A loop that carries an integer, under one control: the control qubit arrives at the port
    of the integer and the integer at that of the qubit. *)
Theorem C53_refuted :
  nth_error (loop_inputs [] [Other 0] 1) (loop_control_port [] 0) = Some (Other 0) /\
  nth_error (loop_inputs [] [Other 0] 1) (loop_port [] 1 0) = Some Qubit.
Proof. exact C53_refuted_pf. Qed.

(** ** C54: links from calls to callees

    When the callees are distinct and no region comes after a call, the links made at the end
    are those from each callee to the node that calls it.  Missing: two calls of the same
    unmodified function, and calls followed by a nested region, for which the claim is
    false. *)
Theorem C54_partial : forall body base,
  tidy (Region body) = true -> NoDup (map fst (calls (Region body) base)) ->
  Permutation (link_calls body base) (calls (Region body) base).
Proof. exact C54_partial_pf. Qed.

Theorem C54_refuted :
  (calls (Region [Call 7; Call 7]) 10 = [(7, 13); (7, 14)] /\
   link_calls [Call 7; Call 7] 10 = [(7, 14)]) /\
  (calls (Region [Call 7; Region []]) 10 = [(7, 13)] /\ link_calls [Call 7; Region []] 10 = []) /\
  (calls (Region [Call 7; Region [Plain; Plain]]) 10 = [(7, 13)] /\
   link_calls [Call 7; Region [Plain; Plain]] 10 = [(7, 17)]).
Proof. exact C54_refuted_pf. Qed.

(** ** Instances *)

(** Invertible maps on bit strings are an algebra as C27 needs it. *)
Lemma on_rest_add : forall m n f s, on_rest m (on_rest n f) s = on_rest (m + n) f s.
Proof. induction m; intros; simpl; auto. destruct s as [|[] s]; auto. rewrite IHm. auto. Qed.
Lemma on_rest_ext : forall n f g, (forall s, f s = g s) -> forall s, on_rest n f s = on_rest n g s.
Proof. induction n; intros f g H s; simpl; auto. destruct s as [|[] s]; auto. rewrite (IHn f g H). auto. Qed.

Definition reversible : algebra.
Proof.
  refine {| op := (list bool -> list bool) * (list bool -> list bool);
    same := fun u v => (forall s, fst u s = fst v s) /\ (forall s, snd u s = snd v s);
    dag := fun u => (snd u, fst u);
    ctrl := fun n u => (on_rest n (fst u), on_rest n (snd u)) |}; simpl.
  - auto.
  - intros u v [A B]. split; auto.
  - intros u v w [A B] [C D]. split; intros; congruence.
  - intros u v [A B]. auto.
  - intros n u v [A B]. split; apply on_rest_ext; auto.
  - auto.
  - auto.
  - auto.
  - intros m n u. split; intros; apply on_rest_add.
Defined.

Definition negate_head : op reversible :=
  (fun s => match s with b :: r => negb b :: r | [] => [] end,
   fun s => match s with b :: r => negb b :: r | [] => [] end).

Example toffoli :
  fst (denote reversible [Control 1; Dagger; Control 1] negate_head) [true; true; false] = [true; true; true] /\
  fst (stands_for reversible (trace_chain no_modifier [Control 1; Dagger; Control 1]) negate_head)
     [true; true; false; true] = [true; true; true; true] /\
  trace_chain no_modifier [Control 1; Dagger; Control 1]
    = {| control := 2; accum_ctrl := [1; 1]; dagger := true; power := false |}.
Proof. repeat split. Qed.

Example metadata_of_modified : new_metadata (trace_chain no_modifier [Control 3]) (Some 5%N) = 7%N.
Proof. reflexivity. Qed.

Example packed : pack_controls nat [2; 0; 1] [10; 11; 12] = Some [[10; 11]; []; [12]] /\
  unpack_controls nat [2; 0; 1] [[10; 11]; []; [12]] = Some [10; 11; 12].
Proof. split; reflexivity. Qed.

Example aligned : sizes [Control 2; Dagger; Control 2] = rev (sizes [Control 2; Dagger; Control 2]) /\
  modify_row (trace_chain no_modifier [Control 2; Dagger; Control 2]) false [Qubit] = [QArray 2; QArray 2; Qubit].
Proof. split; reflexivity. Qed.

Example daggered_rows :
  let quantum := fun t => match t with Other _ => false | _ => true end in
  runs quantum [Qubit; Qubit; Other 1; QArray 2; Other 0] = runs quantum [Other 4; Qubit; Qubit; Other 3; QArray 2] /\
  exists m, wire_inout quantum true [Qubit; Qubit; Other 1; QArray 2; Other 0]
    [Other 4; Qubit; Qubit; Other 3; QArray 2] 0 0 2 = Some m /\
  In ((Incoming, 3), (Outgoing, 6)) m /\ In ((Incoming, 2), (Incoming, 4)) m /\
  In ((Outgoing, 2), (Incoming, 3)) m.
Proof. split; [reflexivity|]. vm_compute. eexists. split; [reflexivity|]. simpl. tauto. Qed.

Example nested_rows :
  let quantum := fun t => match t with Other _ => false | _ => true end in
  forallb quantum [Qubit; Qubit] = true /\ forallb quantum ([Qubit; QArray 3] ++ [Qubit; QArray 3]) = true /\
  exists m, wire_nested quantum true [Qubit; Qubit] [Qubit; QArray 3] [Qubit; QArray 3] = Some m /\
    In ((Incoming, 1), (Outgoing, 3)) m.
Proof. split; [reflexivity|]. split; [reflexivity|]. vm_compute. eexists. split; [reflexivity|]. simpl. tauto. Qed.

Example loop_of_qubits : [Qubit; Qubit] = repeat Qubit (length [Qubit; Qubit]).
Proof. reflexivity. Qed.

Example tidy_body :
  tidy (Region [Plain; Region [Plain]; Region [Region []; Call 3; Call 4]; Plain; Call 5]) = true /\
  NoDup (map fst (calls (Region [Plain; Region [Plain]; Region [Region []; Call 3; Call 4]; Plain; Call 5]) 20)) /\
  link_calls [Plain; Region [Plain]; Region [Region []; Call 3; Call 4]; Plain; Call 5] 20
    = [(5, 37); (4, 35); (3, 34)].
Proof. split; [reflexivity|]. split; [|reflexivity]. repeat constructor; simpl; intuition lia. Qed.

Print Assumptions C27.
Print Assumptions C27_powers.
Print Assumptions C27_flags.
Print Assumptions C28_pack.
Print Assumptions C28_partial.
Print Assumptions C28_indirect_partial.
Print Assumptions C28_refuted.
Print Assumptions C29_bijection.
Print Assumptions C29_shift.
Print Assumptions C29_edges.
Print Assumptions C29_inside.
Print Assumptions C29_dagger_partial.
Print Assumptions C29_dagger_refuted.
Print Assumptions C29_nested_partial.
Print Assumptions C29_nested_refuted.
Print Assumptions C53_partial.
Print Assumptions C53_refuted.
Print Assumptions C54_partial.
Print Assumptions C54_refuted.
