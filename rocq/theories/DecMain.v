(** Proofs of the properties of the pytket decoder and the operation tables. *)
From Coq Require Import List Bool Arith Lia.
From Verif Require Import EncSpec OpsModel DecSpec DecModel DecClSpec DecProofs DecStep DecFull DecLinear DecTyped DecTotal DecTables.
Import ListNotations.

Lemma C40_pf :
  (forall o t, encode_tket_op o = Some t -> o <> MeasureFree -> decode_tket_op t = Some o) /\
  (exists t, encode_tket_op MeasureFree = Some t /\ decode_tket_op t = Some Measure) /\
  (forall t o, decode_tket_op t = Some o -> encode_tket_op o = Some t) /\
  (forall o o' t, encode_tket_op o = Some t -> encode_tket_op o' = Some t ->
     o = o' \/ (o = Measure /\ o' = MeasureFree) \/ (o = MeasureFree /\ o' = Measure)) /\
  (forall t, In t tket_op_types <-> decode_tket_op t <> None) /\
  (forall o, encode_tket_op o = None <-> o = QAlloc \/ o = QFree \/ o = TryQAlloc) /\
  (forall o t x nq nb np, encode_tket_op o = Some t -> o <> MeasureFree ->
     exists d, lookup_op {| o_type := t; o_expr := x |} nq nb np = Some d /\ d_op d = HTket o /\
       qubits_of (d_in d) = qubits_in o /\ params_of (d_in d) = params_in o /\ bits_of (d_in d) = 0 /\ d_take d = 0 /\
       qubits_of (d_out d) = qubits_in o /\ bits_of (d_out d) = bools_out o /\ d_drop d = 0).
Proof.
  split; [intros o t Q N; destruct o; simpl in Q; try discriminate; injection Q as <-; auto; congruence|].
  split; [eexists; split; reflexivity|].
  split; [intros t o Q; apply decode_encode; auto|].
  split; [intros o o' t Q Q'; destruct o; simpl in Q; try discriminate; injection Q as <-; destruct o'; simpl in Q'; try discriminate; auto|].
  split.
  { intros t. split.
    - intros I. simpl in I. repeat (destruct I as [I|I]; [subst t; discriminate|]). destruct I.
    - intros D. destruct t; simpl; try (exfalso; apply D; reflexivity); tauto. }
  split.
  { intros o. split; [destruct o; simpl; try discriminate; auto|intros [-> | [-> | ->]]; reflexivity]. }
  intros o t x nq nb np Q N. destruct o; simpl in Q; try discriminate; injection Q as <-; try congruence; eexists; (split; [reflexivity|]); repeat split; reflexivity.
Qed.

Lemma C41_straight_partial_pf : forall e, straight e ->
  exists b, decode_clexpr e = Some b /\ bool_inputs b = arity (c_op e) /\
    forall bs, length bs = bool_inputs b + 1 -> forall other int,
      cl_sem other int e bs = firstn (bool_inputs b) bs ++ [bool_fun b (firstn (bool_inputs b) bs)].
Proof.
  exact straight_decode.
Qed.

Lemma C41_direct_partial_pf : forall e b, direct e -> decode_clexpr e = Some b ->
  bool_inputs b = arity (c_op e) /\
    forall bs, length bs = bool_inputs b + 1 -> forall other int,
      cl_sem other int e bs = firstn (bool_inputs b) bs ++ [bool_fun b (firstn (bool_inputs b) bs)].
Proof.
  intros e b D Q. destruct (straight_decode e (direct_straight e b D Q)) as (b' & Q' & X). rewrite Q in Q'. injection Q' as <-. exact X.
Qed.

Lemma C41_written_pf : forall b bs, length bs = bool_inputs b -> forall other int e, o_expr (encode_bool_op b) = Some e ->
  cl_sem other int e bs = bool_fun b bs :: tl bs.
Proof.
  intros b bs L other int e Q. injection Q as <-. destruct b; destruct bs as [|x [|y [|]]]; try discriminate; reflexivity.
Qed.

Lemma C41_refuted_pf : forall (E : Type) b (p : pcircuit operation E) c,
  In c (p_commands p) -> p_op c = encode_bool_op b -> length (p_args c) = bool_inputs b -> p_params c = [] ->
  forall ti to perm ops r, decode_circuit p ti to perm ops <> Ok r.
Proof.
  intros E b p c I O L Np ti to perm ops r Q. unfold decode_circuit, decode in Q.
  destruct (init _ _ _) as [st|]; [|discriminate]. cbn [bind] in Q.
  destruct (run_decoder _ _ _ _ st (p_commands p)) as [st1|] eqn:R; [|discriminate]. clear Q.
  revert st R. induction (p_commands p) as [|x l IH]; intros st R; [destruct I|]. cbn [run_decoder] in R.
  destruct (process_command _ _ _ _ st x) as [st2|] eqn:Pc; [|discriminate]. cbn [bind] in R.
  destruct I as [<-|I]; [|exact (IH I _ R)]. clear - O L Np Pc.
  unfold process_command in Pc. destruct (args_to_elems st (p_args x)) as [[qs bs]|] eqn:Ar; [|discriminate]. cbn [bind] in Pc.
  assert (Ln : length qs + length bs = length (p_args x)).
  { clear - Ar. revert qs bs Ar. induction (p_args x) as [|a l IH]; intros qs bs Q; cbn [args_to_elems] in Q; [injection Q as <- <-; auto|].
    destruct (tracked _ _ _) as [t|]; [|discriminate]. destruct (args_to_elems st l) as [[q1 b1]|]; [|discriminate]. cbn [bind] in Q. specialize (IH _ _ eq_refl).
    destruct (get a (s_latest st Bt)); injection Q as <- <-; simpl; lia. }
  rewrite Np in Pc. cbn [load_params] in Pc. rewrite O in Pc.
  assert (Lk : lookup_op (encode_bool_op b) (length qs) (length bs) (@length wire []) = Some (bool_dec b)) by (destruct b; reflexivity). rewrite Lk in Pc.
  destruct (Nat.ltb_spec (length bs) (d_take (bool_dec b))) as [|Ht]; [discriminate|]. cbn [d_take d_drop bool_dec] in *.
  destruct (Nat.ltb_spec (length bs) (bool_inputs b)) as [|_]; [discriminate|]. cbn [orb] in Pc.
  assert (length bs = bool_inputs b) by lia. unfold add_node_with_wires in Pc. rewrite skipn_length in Pc.
  destruct (negb _); [discriminate|]. replace (length bs - bool_inputs b) with 0 in Pc by lia. cbn [d_out bool_dec csum fold_right cadd count_or_default] in Pc.
  destruct (Nat.eqb _ (length qs)) in Pc; discriminate.
Qed.

Lemma C41_nested_refuted_pf : exists e, decode_clexpr e = Some BAnd /\
  exists bs, length bs = 3 /\ forall other int, cl_sem other int e bs <> firstn 2 bs ++ [bool_fun BAnd (firstn 2 bs)].
Proof.
  exists {| bit_posn := [(0, 0); (1, 1); (2, 2)]; reg_posn := []; output_posn := [2]; c_op := BitAnd; c_args := [ASub BitOr [ABit 0; ABit 1]; ABit 1] |}.
  split; [reflexivity|]. exists [false; true; false]. split; [reflexivity|]. intros other int. discriminate.
Qed.

Lemma C41_positions_refuted_pf : exists e e', decode_clexpr e = Some BNot /\ decode_clexpr e' = Some BNot /\
  exists bs, length bs = 2 /\ forall other int, cl_sem other int e bs <> cl_sem other int e' bs.
Proof.
  exists {| bit_posn := [(0, 0); (1, 1)]; reg_posn := []; output_posn := [1]; c_op := BitNot; c_args := [ABit 0] |}, {| bit_posn := [(0, 1); (1, 0)]; reg_posn := []; output_posn := [0]; c_op := BitNot; c_args := [ABit 0] |}.
  split; [reflexivity|]. split; [reflexivity|]. exists [false; false]. split; [reflexivity|]. intros other int. discriminate.
Qed.

Lemma C56_meaning_partial_pf : forall (Op POp E V P : Type) zero one run prun den psem read_op make_op lookup opaque
    (p : pcircuit POp E) ti to perm ops oq (c : tcircuit Op E),
  (forall t, In t ti -> plain_ty t) ->
  sane p ->
  (forall x, In x (p_commands p) -> understood run psem lookup opaque (p_op x)) ->
  map Some oq = map (fun i => nth_error (p_qubits p) (nth i perm i)) (seq 0 (length (p_qubits p))) -> NoDup oq ->
  decode lookup opaque read_op make_op p ti to perm ops = Ok c ->
  map snd (t_inputs c) = ti /\ map snd (t_outputs c) = to /\
  same_meaning (V := V) (P := P) zero one run prun den psem p oq ops c.
Proof.
  intros Op POp E V P zero one run prun den psem read_op make_op lookup opaque p ti to perm ops oq c Pl Sn U Ho No Q.
  eapply decode_ok; eauto. apply Forall_forall. exact Pl.
Qed.

Lemma C56_tables_partial_pf : forall (E V P : Type) tob ofb zero one run prun den psem other int
    (p : pcircuit operation E) ti to perm ops oq c,
  agree (V := V) (P := P) tob ofb run psem other int ->
  (forall t, In t ti -> plain_ty t) ->
  sane p ->
  (forall x e, In x (p_commands p) -> o_type (p_op x) = JClExpr -> o_expr (p_op x) = Some e -> direct e \/ exists n, c_op e = OtherOp n) ->
  map Some oq = map (fun i => nth_error (p_qubits p) (nth i perm i)) (seq 0 (length (p_qubits p))) -> NoDup oq ->
  decode_circuit p ti to perm ops = Ok c ->
  same_meaning zero one run prun den psem p oq ops c.
Proof.
  intros E V P tob ofb zero one run prun den psem other int p ti to perm ops oq c A Pl Sn Fi Ho No Q.
  eapply C56_meaning_partial_pf; eauto. intros x Hx. eapply understood_op; eauto. intros T. destruct (o_expr (p_op x)) as [e|] eqn:Ee; auto. eapply Fi; eauto.
Qed.

Lemma C56_linear_partial_pf : forall (E : Type) (p : pcircuit operation E) ti to perm ops oq c,
  (forall t, In t ti -> plain_ty t) ->
  sane p ->
  map Some oq = map (fun i => nth_error (p_qubits p) (nth i perm i)) (seq 0 (length (p_qubits p))) -> NoDup oq ->
  decode_circuit p ti to perm ops = Ok c ->
  scoped (untyped c) /\ linear (untyped c).
Proof.
  intros E p ti to perm ops oq c Pl Sn Ho No Q. apply Forall_forall in Pl. refine (decode_linear hop operation E lookup_op HOpaque HRead HMake p ti to perm ops oq c Pl Sn _ Ho No Q).
  intros x _ nq nb np d Lk t Ht. unfold lookup_op in Lk.
  assert (Tk : forall op, d = tket_dec op -> t = TQ \/ t = TB \/ t = TT).
  { intros op ->. cbn [d_out tket_dec] in Ht. apply in_app_or in Ht. destruct Ht as [Ht|Ht]; apply repeat_spec in Ht; subst t; auto. destruct op; auto. }
  destruct (o_type (p_op x)); cbn [decode_tket_op] in Lk; try (injection Lk as <-; eapply Tk; reflexivity); try discriminate.
  - destruct (Nat.eqb np 0); [|discriminate]. injection Lk as <-. destruct Ht as [<-|[]]; auto.
  - destruct (Nat.eqb np 0); [|discriminate]. injection Lk as <-. cbn [d_out] in Ht. apply in_app_or in Ht. destruct Ht as [Ht|Ht]; apply repeat_spec in Ht; auto.
  - destruct (o_expr (p_op x)); [|discriminate]. destruct (decode_clexpr c0); [|discriminate]. destruct (Nat.eqb np 0); [|discriminate]. injection Lk as <-. destruct Ht as [<-|[]]; auto.
Qed.

Lemma C56_typed_partial_pf : forall (E : Type) (p : pcircuit operation E) ti to perm ops c,
  (forall t, In t ti -> t <> TT) -> (forall t, In t to -> native_ty t) ->
  (forall x, In x (p_commands p) -> foreign (p_op x)) ->
  decode_circuit p ti to perm ops = Ok c ->
  well_typed c.
Proof.
  intros E p ti to perm ops c Pi Po Fo Q. apply Forall_forall in Po. refine (decode_typed hop E (combine (seq 0 (length ti)) ti) HRead HMake operation lookup_op HOpaque p ti to perm ops c eq_refl _ Po _ Q).
  { intros X. exact (Pi TT X eq_refl). }
  intros x Hx nq nb np d Lk. specialize (Fo x Hx). unfold lookup_op in Lk.
  assert (Tk : forall op, op <> MeasureFree -> d = tket_dec op -> Forall native_ty (d_in d) /\ ordered (d_in d) /\ ~ In TT (d_out d)).
  { intros op No ->. cbn [d_in d_out tket_dec]. split; [|split].
    - apply Forall_forall. intros t Ht. apply in_app_or in Ht. destruct Ht as [Ht|Ht]; apply repeat_spec in Ht; subst t; unfold native_ty; auto.
    - exists (repeat TQ (qubits_in op)), (params_in op). split; auto. intros Ht. apply repeat_spec in Ht. discriminate.
    - intros Ht. apply in_app_or in Ht. destruct Ht as [Ht|Ht]; apply repeat_spec in Ht; [discriminate|]. destruct op; try discriminate. congruence. }
  destruct (o_type (p_op x)) eqn:Ot; cbn [decode_tket_op] in Lk; try (injection Lk as <-; eapply Tk; [|reflexivity]; discriminate); try discriminate.
  - destruct (Nat.eqb np 0); [|discriminate]. injection Lk as <-. cbn [d_in d_out]. split; [repeat constructor|]. split; [exists [TQ], 0; split; auto; intros [Y|[]]; discriminate|intros [Y|[]]; discriminate].
  - destruct (Nat.eqb np 0); [|discriminate]. injection Lk as <-. cbn [d_in d_out]. split; [|split].
    + apply Forall_forall. intros t Ht. apply in_app_or in Ht. destruct Ht as [Ht|Ht]; apply repeat_spec in Ht; subst t; unfold native_ty; auto.
    + exists (repeat TQ nq ++ repeat TB nb), 0. rewrite app_nil_r. split; auto. intros Ht. apply in_app_or in Ht. destruct Ht as [Ht|Ht]; apply repeat_spec in Ht; discriminate.
    + intros Ht. apply in_app_or in Ht. destruct Ht as [Ht|Ht]; apply repeat_spec in Ht; discriminate.
  - destruct (o_expr (p_op x)) as [e|] eqn:Oe; [|discriminate]. destruct (Fo Ot e Oe) as [n Hn]. unfold decode_clexpr in Lk. rewrite Hn in Lk. destruct (_ && _); discriminate.
Qed.

Lemma C56_total_partial_pf : forall (E : Type) (p : pcircuit operation E) ti to perm ops oq,
  (forall t, In t ti -> plain_ty t) -> (forall t, In t to -> plain_ty t) ->
  sane p ->
  (forall x, In x (p_commands p) -> foreign (p_op x) /\
    well_applied (p_op x) (length (arg_qubits (p_bits p) (p_args x))) (length (arg_bits (p_bits p) (p_args x))) (length (p_params x))) ->
  map Some oq = map (fun i => nth_error (p_qubits p) (nth i perm i)) (seq 0 (length (p_qubits p))) -> NoDup oq ->
  qubits_of ti <= length (p_qubits p) -> qubits_of to <= length (p_qubits p) -> bits_of to <= length (p_bits p) -> params_of to <= length ops ->
  exists c, decode_circuit p ti to perm ops = Ok c.
Proof.
  intros E p ti to perm ops oq Pi Po (Nq & Nb & Sn) Fo Ho No H1 H2 H3 H4. apply Forall_forall in Pi, Po.
  refine (decode_total hop E (combine (seq 0 (length ti)) (map count_or_default ti)) HRead HMake operation lookup_op HOpaque p ti to perm ops oq eq_refl Pi Po Nq Nb _ Ho No H1 H2 H3 H4).
  intros x Hx. destruct (Sn x Hx) as [S1 S2]. destruct (Fo x Hx) as [F1 F2]. split; [exact S1|]. split; [exact S2|].
  generalize dependent (length (arg_qubits (p_bits p) (p_args x))). generalize (length (arg_bits (p_bits p) (p_args x))), (length (p_params x)). intros mb mp mq F2.
  assert (Tk : forall op, op <> MeasureFree -> forall t, In t (d_out (tket_dec op)) -> t = TQ \/ t = TB \/ t = TT).
  { intros op No' t Ht. cbn [d_out tket_dec] in Ht. apply in_app_or in Ht. destruct Ht as [Ht|Ht]; apply repeat_spec in Ht; subst t; auto. destruct op; auto. }
  split.
  - intros nq nb np d Lk t Ht. unfold lookup_op in Lk.
    destruct (o_type (p_op x)); cbn [decode_tket_op] in Lk; try (injection Lk as <-; eapply Tk; [|exact Ht]; discriminate); try discriminate.
    + destruct (Nat.eqb np 0); [|discriminate]. injection Lk as <-. destruct Ht as [<-|[]]; auto.
    + destruct (Nat.eqb np 0); [|discriminate]. injection Lk as <-. cbn [d_out] in Ht. apply in_app_or in Ht. destruct Ht as [Ht|Ht]; apply repeat_spec in Ht; auto.
    + destruct (o_expr (p_op x)); [|discriminate]. destruct (decode_clexpr c); [|discriminate]. destruct (Nat.eqb np 0); [|discriminate]. injection Lk as <-. destruct Ht as [<-|[]]; auto.
  - intros d Lk. unfold lookup_op in Lk. unfold well_applied in F2. destruct (o_type (p_op x)) eqn:Ot; cbn [decode_tket_op pytket_arity] in *; try discriminate;
    try (injection Lk as <-; injection F2 as <- <- <-; unfold tket_dec; cbn; repeat split; repeat constructor; unfold plain_ty, out_ty; auto; fail).
    + destruct (Nat.eqb mp 0); [|discriminate]. injection Lk as <-. injection F2 as <- <- <-. cbn. repeat split; repeat constructor; unfold plain_ty, out_ty; auto.
    + subst mb. destruct (Nat.eqb_spec mp 0) as [->|]; [|discriminate]. injection Lk as <-. cbn [d_take d_drop d_in d_out repeat]. rewrite app_nil_r.
      destruct (of_two TQ mq TP 0) as (A & B & C). cbn [repeat] in A, B, C. rewrite app_nil_r in A, B, C. rewrite A, B, C. change (qubits_of [TQ]) with 1. change (bits_of [TQ]) with 0. change (params_of [TQ]) with 0.
      repeat split; try lia; apply Forall_forall; intros t Ht; apply repeat_spec in Ht; unfold plain_ty, out_ty; auto.
    + destruct (o_expr (p_op x)) as [e|] eqn:Oe; [|discriminate]. destruct (F1 Ot e Oe) as [n Hn]. unfold decode_clexpr in Lk. rewrite Hn in Lk. destruct (_ && _); discriminate.
Qed.

Lemma C56_lost_refuted_pf : exists (p : pcircuit operation nat) ti to c,
  sane p /\ p_commands p = [] /\ ti = [TTup [TQ; TQ]] /\ to = [TQ; TQ] /\
  decode_circuit p ti to [] [] = Ok c /\ ~ linear (untyped c).
Proof.
  exists {| p_qubits := [7; 8]; p_bits := []; p_commands := [] |}, [TTup [TQ; TQ]], [TQ; TQ].
  let r := eval vm_compute in (decode_circuit {| p_qubits := [7; 8]; p_bits := []; p_commands := [] |} [TTup [TQ; TQ]] [TQ; TQ] [] ([] : list nat)) in match r with Ok ?c => exists c end.
  split; [split; [repeat constructor; simpl; intuition lia|split; [constructor|intros ? []]]|].
  do 3 (split; [reflexivity|]). split; [vm_compute; reflexivity|]. intros L. specialize (L 0). cbv in L. specialize (L (or_introl eq_refl)). assert (X : 0 = 1) by (apply L; lia). discriminate.
Qed.

Lemma C56_tuple_refuted_pf : exists (p : pcircuit operation nat) ti to c,
  sane p /\ p_commands p = [] /\ length (p_bits p) = 2 /\ ti = [TTup [TB; TB]] /\ to = [TB; TB] /\
  decode_circuit p ti to [] [] = Ok c /\
  forall (V P : Type) zero one run prun den (e0 e : env V P) v,
    meaning hop nat V P zero one run prun den (nodes (untyped c)) e0 = Some e -> gather e (outputs (untyped c)) = Some v -> vb v = [zero; zero].
Proof.
  exists {| p_qubits := []; p_bits := [7; 8]; p_commands := [] |}, [TTup [TB; TB]], [TB; TB]. eexists.
  split; [split; [constructor|split; [repeat constructor; simpl; intuition lia|intros ? []]]|].
  do 4 (split; [reflexivity|]). split; [reflexivity|].
  intros V P zero one run prun den e0 e v M G. cbn in M. injection M as <-. cbn in G. injection G as <-. reflexivity.
Qed.

Lemma C56_typed_refuted_pf : exists (p : pcircuit operation nat) c,
  sane p /\ (forall x e, In x (p_commands p) -> o_expr (p_op x) = Some e -> straight e) /\
  decode_circuit p (default_signature p) (default_signature p) [] [] = Ok c /\ ~ well_typed c.
Proof.
  pose (p := {| p_qubits := []; p_bits := [0; 1; 2]; p_commands := [{| p_args := [0; 1; 2]; p_params := [];
    p_op := {| o_type := JClExpr; o_expr := Some {| bit_posn := [(0, 0); (1, 1); (2, 2)]; reg_posn := []; output_posn := [2]; c_op := BitAnd; c_args := [ABit 0; ABit 1] |} |} |}] |} : pcircuit operation nat).
  exists p. let r := eval vm_compute in (decode_circuit p (default_signature p) (default_signature p) [] []) in match r with Ok ?c => exists c end.
  split; [split; [constructor|split; [repeat constructor; simpl; intuition lia|]]|].
  { intros x [<-|[]]. cbn [p_args p_bits p_qubits]. split; [repeat constructor; simpl; intuition lia|]. intros i Hi. right. exact Hi. }
  split. { intros x e [<-|[]]. cbn. intros [= <-]. repeat split; try discriminate. cbn [c_op arity]. intros i Hi. destruct i as [|[|i]]; [reflexivity|reflexivity|lia]. }
  split; [vm_compute; reflexivity|]. intros W. cbv in W. destruct W as (_ & _ & _ & _ & W). specialize (W 3 TB (or_introl eq_refl)). discriminate.
Qed.

Lemma C56_reads_refuted_pf : exists (p : pcircuit operation nat),
  sane p /\ (forall x e, In x (p_commands p) -> o_expr (p_op x) = Some e -> straight e) /\
  decode_circuit p (default_signature p) (default_signature p) [] [] = Err OutdatedBit.
Proof.
  pose (e := fun o => {| o_type := JClExpr; o_expr := Some {| bit_posn := [(0, 0); (1, 1); (2, 2)]; reg_posn := []; output_posn := [match o with BitNot => 1 | _ => 2 end]; c_op := o; c_args := match o with BitNot => [ABit 0] | _ => [ABit 0; ABit 1] end |} |}).
  exists {| p_qubits := []; p_bits := [0; 1; 2; 3; 4]; p_commands := [{| p_args := [0; 1; 2]; p_params := []; p_op := e BitAnd |}; {| p_args := [2; 3]; p_params := []; p_op := e BitNot |}; {| p_args := [2; 4]; p_params := []; p_op := e BitNot |}] |}.
  split; [split; [constructor|split; [repeat constructor; simpl; intuition lia|]]|].
  { intros x [<-|[<-|[<-|[]]]]; cbn [p_args p_bits p_qubits]; (split; [repeat constructor; simpl; intuition lia|]); intros i Hi; right; simpl in Hi |- *; tauto. }
  split. { intros x y [<-|[<-|[<-|[]]]]; cbn; intros [= <-]; (repeat split; try discriminate); cbn [c_op arity]; intros i Hi; destruct i as [|[|i]]; try reflexivity; lia. }
  reflexivity.
Qed.

Lemma C56_barrier_refuted_pf : exists (p : pcircuit operation nat),
  sane p /\ (forall x, In x (p_commands p) -> o_type (p_op x) = JBarrier) /\
  decode_circuit p (default_signature p) (default_signature p) [] [] = Err NotEnoughOutputRegisters.
Proof.
  exists {| p_qubits := [0]; p_bits := [1]; p_commands := [{| p_args := [0; 1]; p_params := []; p_op := {| o_type := JBarrier; o_expr := None |} |}] |}.
  split; [split; [repeat constructor; simpl; tauto|split; [repeat constructor; simpl; tauto|]]|].
  { intros x [<-|[]]. cbn. split; [repeat constructor; simpl; intuition lia|]. intros i Hi. tauto. }
  split; [intros x [<-|[]]; reflexivity|reflexivity].
Qed.

