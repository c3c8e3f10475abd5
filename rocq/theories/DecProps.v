(** Properties of the pytket decoder and the operation tables. *)
From Coq Require Import List Bool Arith Lia.
From Verif Require Import EncSpec OpsModel DecSpec DecModel DecClSpec DecProofs DecStep DecFull DecLinear DecTyped DecTotal DecTables DecMain.
Import ListNotations.

(** ** C40: the tables of operations

    An operation that is written as a gate is read back as itself, except that MeasureFree is
    read back as Measure; no other two operations share a gate; what is read is written back as
    it was; the decoder announces exactly the gates that it can read; and the signature of what
    is read has the qubits, parameters and output bits that the written command has. *)
Theorem C40 :
  (forall o t, encode_tket_op o = Some t -> o <> MeasureFree -> decode_tket_op t = Some o) /\
  (exists t, encode_tket_op MeasureFree = Some t /\ decode_tket_op t = Some Measure) /\
  (forall t o, decode_tket_op t = Some o -> encode_tket_op o = Some t) /\
  (forall o o' t, encode_tket_op o = Some t -> encode_tket_op o' = Some t ->
     o = o' \/ (o = Measure /\ o' = MeasureFree) \/ (o = MeasureFree /\ o' = Measure)) /\
  (forall t, In t tket_op_types <-> decode_tket_op t <> None) /\
  (forall o, encode_tket_op o = None <-> o = QAlloc \/ o = QFree \/ o = TryQAlloc) /\
  (forall o t x nq nb np, encode_tket_op o = Some t -> o <> MeasureFree ->
     exists d, lookup_op {| o_type := t; o_expr := x |} nq nb np = Some d /\ d_op d = HTket o /\
       qubits_of (d_in d) = qubits_in o /\ params_of (d_in d) = params_in o /\ bits_of (d_in d) = 0 /\ d_take d = 0 /\
       qubits_of (d_out d) = qubits_in o /\ bits_of (d_out d) = bools_out o /\ d_drop d = 0).
Proof. exact C40_pf. Qed.

(** ** C41: boolean operations

    An expression whose arguments are the first bits in order, and whose result goes to the
    next bit, is read as the operation on booleans that does the same. *)
Theorem C41_straight_partial : forall e, straight e ->
  exists b, decode_clexpr e = Some b /\ bool_inputs b = arity (c_op e) /\
    forall bs, length bs = bool_inputs b + 1 -> forall other int,
      cl_sem other int e bs = firstn (bool_inputs b) bs ++ [bool_fun b (firstn (bool_inputs b) bs)].
Proof. exact C41_straight_partial_pf. Qed.
(** Expressions on the same bits in another order are not taken for it. *)
Theorem C41_direct_partial : forall e b, direct e -> decode_clexpr e = Some b ->
  bool_inputs b = arity (c_op e) /\
    forall bs, length bs = bool_inputs b + 1 -> forall other int,
      cl_sem other int e bs = firstn (bool_inputs b) bs ++ [bool_fun b (firstn (bool_inputs b) bs)].
Proof. exact C41_direct_partial_pf. Qed.
(** What the encoder writes for an operation on booleans computes it, into the first bit. *)
Theorem C41_written : forall b bs, length bs = bool_inputs b -> forall other int e, o_expr (encode_bool_op b) = Some e ->
  cl_sem other int e bs = bool_fun b bs :: tl bs.
Proof. exact C41_written_pf. Qed.
(** Refuted: the command that the encoder writes for an operation on booleans acts on the input
    bits alone, the result goes to the first of them. No circuit with such a command can be read. *)
Theorem C41_refuted : forall (E : Type) b (p : pcircuit operation E) c,
  In c (p_commands p) -> p_op c = encode_bool_op b -> length (p_args c) = bool_inputs b -> p_params c = [] ->
  forall ti to perm ops r, decode_circuit p ti to perm ops <> Ok r.
Proof. exact C41_refuted_pf. Qed.
(** Refuted: nested expressions among the arguments are not looked at. [(b0 | b1) & b1] is read as [and]. *)
Theorem C41_nested_refuted : exists e, decode_clexpr e = Some BAnd /\
  exists bs, length bs = 3 /\ forall other int, cl_sem other int e bs <> firstn 2 bs ++ [bool_fun BAnd (firstn 2 bs)].
Proof. exact C41_nested_refuted_pf. Qed.
(** Refuted: which arguments the variables stand for, and where the result goes, is not looked at. *)
Theorem C41_positions_refuted : exists e e', decode_clexpr e = Some BNot /\ decode_clexpr e' = Some BNot /\
  exists bs, length bs = 2 /\ forall other int, cl_sem other int e bs <> cl_sem other int e' bs.
Proof. exact C41_positions_refuted_pf. Qed.

(** ** C56: a decoded circuit does what the pytket circuit does

    For every pytket circuit with distinct, declared arguments, and every signature whose input
    wires are single qubits, single bits or parameters: if the decoder succeeds, and what
    it makes of each operation does what the operation does, then the circuit does what the
    commands do: with the input values in the first registers and zeroes in the others, the
    outputs are the final values of the first qubits, in the order of the output permutation, of
    the first bits, and of the output parameters. *)
Theorem C56_meaning_partial : forall (Op POp E V P : Type) zero one run prun den psem read_op make_op lookup opaque
    (p : pcircuit POp E) ti to perm ops oq (c : tcircuit Op E),
  (forall t, In t ti -> plain_ty t) ->
  sane p ->
  (forall x, In x (p_commands p) -> understood run psem lookup opaque (p_op x)) ->
  map Some oq = map (fun i => nth_error (p_qubits p) (nth i perm i)) (seq 0 (length (p_qubits p))) -> NoDup oq ->
  decode lookup opaque read_op make_op p ti to perm ops = Ok c ->
  map snd (t_inputs c) = ti /\ map snd (t_outputs c) = to /\
  same_meaning (V := V) (P := P) zero one run prun den psem p oq ops c.
Proof. exact C56_meaning_partial_pf. Qed.
(** With the decoders of the code, in any interpretation in which the operations do what they stand
    for, if all classical expressions compute one of the first bits into the next one, or have other operators. *)
Theorem C56_tables_partial : forall (E V P : Type) tob ofb zero one run prun den psem other int
    (p : pcircuit operation E) ti to perm ops oq c,
  agree (V := V) (P := P) tob ofb run psem other int ->
  (forall t, In t ti -> plain_ty t) ->
  sane p ->
  (forall x e, In x (p_commands p) -> o_type (p_op x) = JClExpr -> o_expr (p_op x) = Some e -> direct e \/ exists n, c_op e = OtherOp n) ->
  map Some oq = map (fun i => nth_error (p_qubits p) (nth i perm i)) (seq 0 (length (p_qubits p))) -> NoDup oq ->
  decode_circuit p ti to perm ops = Ok c ->
  same_meaning zero one run prun den psem p oq ops c.
Proof. exact C56_tables_partial_pf. Qed.
(** Every wire of a decoded circuit is made once, before it is used, and every wire that carries a qubit
    is used exactly once: qubits that are not among the outputs are freed. *)
Theorem C56_linear_partial : forall (E : Type) (p : pcircuit operation E) ti to perm ops oq c,
  (forall t, In t ti -> plain_ty t) ->
  sane p ->
  map Some oq = map (fun i => nth_error (p_qubits p) (nth i perm i)) (seq 0 (length (p_qubits p))) -> NoDup oq ->
  decode_circuit p ti to perm ops = Ok c ->
  scoped (untyped c) /\ linear (untyped c).
Proof. exact C56_linear_partial_pf. Qed.
(** The types in a decoded circuit fit together, if there are no opaque booleans in the signature and
    the classical expressions have other operators. *)
Theorem C56_typed_partial : forall (E : Type) (p : pcircuit operation E) ti to perm ops c,
  (forall t, In t ti -> t <> TT) -> (forall t, In t to -> native_ty t) ->
  (forall x, In x (p_commands p) -> foreign (p_op x)) ->
  decode_circuit p ti to perm ops = Ok c ->
  well_typed c.
Proof. exact C56_typed_partial_pf. Qed.
(** A circuit of gates with as many arguments as they need, of barriers on qubits and of operations that
    the decoder does not know can always be decoded, if the registers suffice for the signature. *)
Theorem C56_total_partial : forall (E : Type) (p : pcircuit operation E) ti to perm ops oq,
  (forall t, In t ti -> plain_ty t) -> (forall t, In t to -> plain_ty t) ->
  sane p ->
  (forall x, In x (p_commands p) -> foreign (p_op x) /\
    well_applied (p_op x) (length (arg_qubits (p_bits p) (p_args x))) (length (arg_bits (p_bits p) (p_args x))) (length (p_params x))) ->
  map Some oq = map (fun i => nth_error (p_qubits p) (nth i perm i)) (seq 0 (length (p_qubits p))) -> NoDup oq ->
  qubits_of ti <= length (p_qubits p) -> qubits_of to <= length (p_qubits p) -> bits_of to <= length (p_bits p) -> params_of to <= length ops ->
  exists c, decode_circuit p ti to perm ops = Ok c.
Proof. exact C56_total_partial_pf. Qed.
(** Refuted: the qubits of a tuple among the inputs are lost. *)
Theorem C56_lost_refuted : exists (p : pcircuit operation nat) ti to c,
  sane p /\ p_commands p = [] /\ ti = [TTup [TQ; TQ]] /\ to = [TQ; TQ] /\
  decode_circuit p ti to [] [] = Ok c /\ ~ linear (untyped c).
Proof. exact C56_lost_refuted_pf. Qed.
(** Refuted: the qubits and bits of a tuple among the inputs are not found again; the decoder uses new
    qubits and false bits instead. *)
Theorem C56_tuple_refuted : exists (p : pcircuit operation nat) ti to c,
  sane p /\ p_commands p = [] /\ length (p_bits p) = 2 /\ ti = [TTup [TB; TB]] /\ to = [TB; TB] /\
  decode_circuit p ti to [] [] = Ok c /\
  forall (V P : Type) zero one run prun den (e0 e : env V P) v,
    meaning hop nat V P zero one run prun den (nodes (untyped c)) e0 = Some e -> gather e (outputs (untyped c)) = Some v -> vb v = [zero; zero].
Proof. exact C56_tuple_refuted_pf. Qed.
(** Refuted: a wire that had to be converted is remembered with the type that it had before. A straight
    expression on bits of the default signature gives a circuit with a type error. *)
Theorem C56_typed_refuted : exists (p : pcircuit operation nat) c,
  sane p /\ (forall x e, In x (p_commands p) -> o_expr (p_op x) = Some e -> straight e) /\
  decode_circuit p (default_signature p) (default_signature p) [] [] = Ok c /\ ~ well_typed c.
Proof. exact C56_typed_refuted_pf. Qed.
(** Refuted: an operation on booleans uses up its inputs; if a bit that holds an opaque boolean is read
    twice, the circuit cannot be decoded. *)
Theorem C56_reads_refuted : exists (p : pcircuit operation nat),
  sane p /\ (forall x e, In x (p_commands p) -> o_expr (p_op x) = Some e -> straight e) /\
  decode_circuit p (default_signature p) (default_signature p) [] [] = Err OutdatedBit.
Proof. exact C56_reads_refuted_pf. Qed.
(** Refuted: a barrier on bits gives outputs that the decoder does not expect. *)
Theorem C56_barrier_refuted : exists (p : pcircuit operation nat),
  sane p /\ (forall x, In x (p_commands p) -> o_type (p_op x) = JBarrier) /\
  decode_circuit p (default_signature p) (default_signature p) [] [] = Err NotEnoughOutputRegisters.
Proof. exact C56_barrier_refuted_pf. Qed.

(** ** Instances *)
Definition some_other : nat -> list (list bool) -> list bool := fun n args => map negb (hd [] args).
Definition some_int : nat -> list bool := fun n => [Nat.odd n].
Definition some_gate (o : TketOp) (qs : list bool) : list bool * list bool :=
  match o, qs with
  | X, [a] => ([negb a], [])
  | CX, [a; b] => ([a; xorb a b], [])
  | Measure, [a] => ([a], [a])
  | _, _ => (firstn (qubits_out o) (qs ++ repeat false (qubits_out o)), repeat false (bools_out o))
  end.
Definition some_psem (o : operation) (qs bs : list bool) (ps : list nat) : list bool * list bool :=
  match o_type o with
  | JClExpr => match o_expr o with Some e => (qs, cl_sem some_other some_int e bs) | None => (qs, bs) end
  | t => match decode_tket_op t with
         | Some op => if Nat.eqb (length qs) (qubits_in op) && Nat.eqb (length bs) (bools_out op) then some_gate op qs else (qs, bs)
         | None => (qs, bs) end
  end.
Definition some_run (o : hop) (qs bs : list bool) (ps : list nat) : list bool * list bool :=
  match o with
  | HTket o => some_gate o qs
  | HBool o => ([], [bool_fun o bs])
  | HRead | HMake | HNoop | HBarrier _ _ => (qs, bs)
  | HOpaque o => some_psem o qs bs ps
  end.
Lemma some_gate_len o qs : length qs = qubits_in o -> length (fst (some_gate o qs)) = qubits_out o /\ length (snd (some_gate o qs)) = bools_out o.
Proof. intros L. destruct o; cbn in L; destruct qs as [|a [|b [|c [|]]]]; try discriminate; auto. Qed.
Lemma put_bits_len is : forall v bs, length (put_bits is v bs) = length bs.
Proof.
  assert (H1 : forall i b bs, length (put_bit i b bs) = length bs) by (induction i; intros b [|x bs]; simpl; auto).
  induction is as [|i is IH]; intros [|b v] bs; simpl; auto. now rewrite IH, H1.
Qed.
Example agree_instance : agree (fun b => b) (fun b => b) some_run some_psem some_other some_int.
Proof.
  constructor; auto.
  - intros o bs L. cbn. now rewrite map_id.
  - intros o qs ps L _. apply some_gate_len; auto.
  - intros o qs bs ps. unfold some_psem. destruct (o_type o) as [| | | | | | | | | | | | | | | | | | | | | | |]; cbn [decode_tket_op]; auto;
      try (match goal with |- context [if ?x then _ else _] => destruct x eqn:C end; [|auto]; apply andb_true_iff in C; destruct C as [C1 C2]; apply Nat.eqb_eq in C1; apply Nat.eqb_eq in C2; rewrite C2;
           match type of C1 with _ = qubits_in ?op => destruct (some_gate_len op qs C1) as [-> ->] end; auto).
    destruct (o_expr o); auto. cbn. unfold cl_sem. now rewrite put_bits_len.
  - intros o t x qs bs ps En N Lq Lb _. cbn [some_run]. unfold some_psem. cbn [o_type]. destruct o; cbn in En; try discriminate; injection En as <-; try congruence; cbn [decode_tket_op]; rewrite Lq, Lb; reflexivity.
  - intros t x qs bs [-> | ->]; reflexivity.
  - intros e qs bs. unfold some_psem. cbn. now rewrite !map_id.
Qed.
(** X q0; CX q0 q1; Measure q1 -> c0; c2 = c0 ^ c1; and an unknown gate on q2: the outputs are permuted. *)
Definition some_circuit : pcircuit operation nat :=
  {| p_qubits := [10; 11; 12]; p_bits := [0; 1; 2];
     p_commands := [ {| p_op := {| o_type := JX; o_expr := None |}; p_args := [10]; p_params := [] |};
                     {| p_op := {| o_type := JCX; o_expr := None |}; p_args := [10; 11]; p_params := [] |};
                     {| p_op := {| o_type := JOther 5; o_expr := None |}; p_args := [12]; p_params := [3] |};
                     {| p_op := {| o_type := JMeasure; o_expr := None |}; p_args := [11; 0]; p_params := [] |};
                     {| p_op := {| o_type := JClExpr; o_expr := Some {| bit_posn := [(0, 0); (1, 1); (2, 2)]; reg_posn := []; output_posn := [2]; c_op := BitXor; c_args := [ABit 0; ABit 1] |} |}; p_args := [0; 1; 2]; p_params := [] |} ] |}.
Example C56_instance : exists c,
  decode_circuit some_circuit [TQ; TB; TP] [TB; TQ; TQ; TB; TB] [1; 0] [7] = Ok c /\
  sane some_circuit /\ length (t_nodes c) = 14 /\
  same_meaning false true some_run (fun _ _ => []) (fun n : nat => n) some_psem some_circuit [11; 10; 12] [7] c.
Proof.
  let r := eval vm_compute in (decode_circuit some_circuit [TQ; TB; TP] [TB; TQ; TQ; TB; TB] [1; 0] [7]) in match r with Ok ?c => exists c end. split; [vm_compute; reflexivity|]. assert (Sn : sane some_circuit).
  { split; [repeat constructor; simpl; intuition lia|split; [repeat constructor; simpl; intuition lia|]].
    intros x [<-|[<-|[<-|[<-|[<-|[]]]]]]; cbn [p_args]; (split; [repeat constructor; simpl; intuition lia|]); intros i Hi; simpl in Hi |- *; tauto. }
  split; [exact Sn|]. split; [reflexivity|].
  eapply C56_tables_partial with (ti := [TQ; TB; TP]) (to := [TB; TQ; TQ; TB; TB]) (perm := [1; 0]).
  - exact agree_instance.
  - intros t [<-|[<-|[<-|[]]]]; unfold plain_ty; auto.
  - exact Sn.
  - intros x e Hx _ He. left. destruct Hx as [<-|[<-|[<-|[<-|[<-|[]]]]]]; cbn in He; try discriminate. injection He as <-. split; [discriminate|]. split; [reflexivity|]. split; [|split; [|auto]]; cbn [c_op arity].
    + intros a [<-|[<-|[]]]; [exists 0|exists 1]; split; auto; lia.
    + intros i Hi. destruct i as [|[|i]]; [reflexivity|reflexivity|lia].
  - reflexivity.
  - repeat constructor; simpl; intuition lia.
  - vm_compute; reflexivity.
Qed.
Example C56_linear_instance : exists c, decode_circuit some_circuit [TQ; TB; TP] [TB; TQ] [1; 0] [7] = Ok c /\ scoped (untyped c) /\ linear (untyped c) /\
  length (filter (fun n => match what n with IFree => true | _ => false end) (nodes (untyped c))) = 2.
Proof.
  let r := eval vm_compute in (decode_circuit some_circuit [TQ; TB; TP] [TB; TQ] [1; 0] [7]) in match r with Ok ?c => exists c end. split; [vm_compute; reflexivity|].
  cut (forall A B C : Prop, A /\ B -> C -> A /\ B /\ C); [|tauto]. intros K. apply K; [|vm_compute; reflexivity].
  eapply C56_linear_partial with (p := some_circuit) (ti := [TQ; TB; TP]) (to := [TB; TQ]) (perm := [1; 0]) (ops := [7]) (oq := [11; 10; 12]).
  - intros t [<-|[<-|[<-|[]]]]; unfold plain_ty; auto.
  - split; [repeat constructor; simpl; intuition lia|split; [repeat constructor; simpl; intuition lia|]].
    intros x [<-|[<-|[<-|[<-|[<-|[]]]]]]; cbn [p_args]; (split; [repeat constructor; simpl; intuition lia|]); intros i Hi; simpl in Hi |- *; tauto.
  - reflexivity.
  - repeat constructor; simpl; intuition lia.
  - vm_compute; reflexivity.
Qed.
Definition gate_circuit : pcircuit operation nat := {| p_qubits := [10; 11; 12]; p_bits := [0; 1; 2]; p_commands := firstn 4 (p_commands some_circuit) ++ [{| p_op := {| o_type := JBarrier; o_expr := None |}; p_args := [12; 10]; p_params := [] |}] |}.
Example C56_total_instance : exists c, decode_circuit gate_circuit [TQ; TB; TP] [TB; TQ] [1; 0] [7] = Ok c /\ well_typed c.
Proof.
  assert (Fo : forall x, In x (p_commands gate_circuit) -> foreign (p_op x) /\ well_applied (p_op x) (length (arg_qubits (p_bits gate_circuit) (p_args x))) (length (arg_bits (p_bits gate_circuit) (p_args x))) (length (p_params x))).
  { intros x [<-|[<-|[<-|[<-|[<-|[]]]]]]; (split; [intros Y; discriminate|reflexivity||exact I]). }
  destruct (C56_total_partial nat gate_circuit [TQ; TB; TP] [TB; TQ] [1; 0] [7] [11; 10; 12]) as [c Hc]; auto.
  - intros t [<-|[<-|[<-|[]]]]; unfold plain_ty; auto.
  - intros t [<-|[<-|[]]]; unfold plain_ty; auto.
  - split; [repeat constructor; simpl; intuition lia|split; [repeat constructor; simpl; intuition lia|]].
    intros x [<-|[<-|[<-|[<-|[<-|[]]]]]]; cbn [p_args]; (split; [repeat constructor; simpl; intuition lia|]); intros i Hi; simpl in Hi |- *; tauto.
  - repeat constructor; simpl; intuition lia.
  - cbn. lia.
  - cbn. lia.
  - cbn. lia.
  - cbn. lia.
  - exists c. split; [exact Hc|]. eapply C56_typed_partial with (p := gate_circuit) (ti := [TQ; TB; TP]) (to := [TB; TQ]) (perm := [1; 0]) (ops := [7]).
    + intros t [<-|[<-|[<-|[]]]]; discriminate.
    + intros t [<-|[<-|[]]]; unfold native_ty; auto.
    + intros x Hx. apply Fo. exact Hx.
    + exact Hc.
Qed.
Example C41_instance : straight {| bit_posn := [(0, 0); (1, 1); (2, 2)]; reg_posn := []; output_posn := [2]; c_op := BitOr; c_args := [ABit 0; ABit 1] |}.
Proof. repeat split; try discriminate. cbn [c_op arity]. intros i Hi. destruct i as [|[|i]]; [reflexivity|reflexivity|lia]. Qed.

Print Assumptions C40.
Print Assumptions C41_direct_partial.
Print Assumptions C41_written.
Print Assumptions C41_straight_partial.
Print Assumptions C41_refuted.
Print Assumptions C41_nested_refuted.
Print Assumptions C41_positions_refuted.
Print Assumptions C56_meaning_partial.
Print Assumptions C56_tables_partial.
Print Assumptions C56_linear_partial.
Print Assumptions C56_typed_partial.
Print Assumptions C56_total_partial.
Print Assumptions C56_lost_refuted.
Print Assumptions C56_tuple_refuted.
Print Assumptions C56_typed_refuted.
Print Assumptions C56_reads_refuted.
Print Assumptions C56_barrier_refuted.
