(** Proofs about the tables of the pytket encoder and decoder. *)
From Coq Require Import List Bool Arith Lia.
From Verif Require Import EncSpec OpsModel DecSpec DecModel DecClSpec DecStep.
Import ListNotations.

Lemma straight_decode e : straight e -> exists b, decode_clexpr e = Some b /\ bool_inputs b = arity (c_op e) /\
  forall bs, length bs = bool_inputs b + 1 -> forall other int, cl_sem other int e bs = firstn (bool_inputs b) bs ++ [bool_fun b (firstn (bool_inputs b) bs)].
Proof.
  intros (No & A & B & R & O). unfold decode_clexpr. rewrite R, A. cbn [forall_numbered andb].
  unfold cl_sem. rewrite O, A.
  assert (B0 : assoc 0 (bit_posn e) = Some 0) by (apply B; destruct (c_op e); simpl; lia).
  destruct (c_op e) as [| | | | |n] eqn:Co; cbn [arity seq map forall_numbered Nat.eqb andb] in *; [| | | | |exfalso; apply (No n); auto];
    (eexists; split; [reflexivity|]; split; [reflexivity|]; intros bs L other int); cbn [bool_inputs Nat.add] in L;
    try (assert (B1 : assoc 1 (bit_posn e) = Some 1) by (apply B; lia)); cbn [cl_value]; rewrite B0; try rewrite B1;
    destruct bs as [|x [|y [|z [|]]]]; try discriminate; reflexivity.
Qed.
(** Arguments in another order are not accepted. *)
Lemma direct_straight e b : direct e -> decode_clexpr e = Some b -> straight e.
Proof.
  intros (No & L & Ar & Po & Re & Ou) D. split; [exact No|]. split; [|auto]. unfold decode_clexpr in D. rewrite Re in D. cbn [forall_numbered andb] in D.
  destruct (forall_numbered _ 0 (c_args e)) eqn:F; [|discriminate]. clear D. rewrite <- L. clear L Po.
  assert (X : forall l k, (forall a, In a l -> exists i, i < arity (c_op e) /\ a = ABit i) -> forall_numbered (fun i a => match a with ABit j | AReg j => Nat.eqb j i | _ => true end) k l = true -> l = map ABit (seq k (length l))).
  { induction l as [|a l IH]; intros k Ha Fo; [reflexivity|]. cbn [forall_numbered] in Fo. apply andb_true_iff in Fo. destruct Fo as [F1 F2]. destruct (Ha a (or_introl eq_refl)) as (i & _ & ->). apply Nat.eqb_eq in F1. subst.
    cbn [length seq map]. f_equal. apply IH; auto. intros; apply Ha; now right. }
  apply X; auto.
Qed.
Lemma of_repeat n t : qubits_of (repeat t n) = n * qubits_of [t] /\ bits_of (repeat t n) = n * bits_of [t] /\ params_of (repeat t n) = n * params_of [t].
Proof.
  induction n as [|n IH]; [auto|]. change (repeat t (Datatypes.S n)) with (t :: repeat t n). destruct (of_cons t (repeat t n)) as (-> & -> & ->). destruct IH as (-> & -> & ->). simpl. auto.
Qed.
Lemma of_two a n b m : qubits_of (repeat a n ++ repeat b m) = n * qubits_of [a] + m * qubits_of [b] /\ bits_of (repeat a n ++ repeat b m) = n * bits_of [a] + m * bits_of [b] /\
  params_of (repeat a n ++ repeat b m) = n * params_of [a] + m * params_of [b].
Proof.
  destruct (of_repeat n a) as (A1 & A2 & A3), (of_repeat m b) as (B1 & B2 & B3). unfold qubits_of, bits_of, params_of in *. rewrite !of_app. rewrite A1, A2, A3, B1, B2, B3. auto.
Qed.

Section Tables.
Variables V P : Type.
Variables (tob : V -> bool) (ofb : bool -> V).
Variable run : hop -> list V -> list V -> list P -> list V * list V.
Variable psem : operation -> list V -> list V -> list P -> list V * list V.
Variables (other : nat -> list (list bool) -> list bool) (int : nat -> list bool).
Hypothesis A : agree tob ofb run psem other int.

Definition fine (o : operation) : Prop := o_type o = JClExpr -> match o_expr o with Some e => direct e \/ exists n, c_op e = OtherOp n | None => True end.
Lemma opaque_ok o nq nb np : same_opaque run psem o nq nb np (HOpaque o).
Proof.
  intros qs bs ps L1 L2 L3. cbn zeta. rewrite (a_opaque _ _ _ _ _ _ _ _ A). destruct (p_len _ _ _ _ _ _ _ _ A o qs bs ps) as [-> ->]. auto.
Qed.
Lemma gate_ok t x op nq nb np : encode_tket_op op = Some t -> op <> MeasureFree -> same_sem run psem {| o_type := t; o_expr := x |} nq nb np (tket_dec op).
Proof.
  intros En Nm. split.
  - intros ty Hty. cbn [d_out tket_dec] in Hty. apply in_app_or in Hty. destruct Hty as [Hty|Hty]; apply repeat_spec in Hty; auto. destruct op; auto.
  - cbn [d_in d_out d_take d_drop d_op tket_dec]. destruct (of_two TQ (qubits_in op) TP (params_in op)) as (-> & -> & ->).
    destruct (of_two TQ (qubits_out op) (match op with MeasureFree => TT | _ => TB end) (bools_out op)) as (-> & -> & _).
    assert (Tb : qubits_of [match op with MeasureFree => TT | _ => TB end] = 0 /\ bits_of [match op with MeasureFree => TT | _ => TB end] = 1) by (destruct op; auto). destruct Tb as [-> ->].
    change (qubits_of [TQ]) with 1. change (bits_of [TQ]) with 0. change (params_of [TQ]) with 0. change (qubits_of [TP]) with 0. change (bits_of [TP]) with 0. change (params_of [TP]) with 1.
    rewrite !Nat.mul_1_r, !Nat.mul_0_r, !Nat.add_0_r. cbn [Nat.add]. intros H1 _ H2 H3 H4 qs bs ps L1 L2 L3. cbn zeta. cbn [firstn app].
    destruct (a_tket _ _ _ _ _ _ _ _ A op qs ps) as [X Y]; try lia. rewrite X, Y. split; auto. split; [lia|].
    rewrite (p_gate _ _ _ _ _ _ _ _ A op t x qs bs ps) by (auto; lia). apply surjective_pairing.
Qed.
Lemma decode_encode t op : decode_tket_op t = Some op -> encode_tket_op op = Some t /\ op <> MeasureFree.
Proof. destruct t; simpl; intros Q; try discriminate; injection Q as <-; split; auto; discriminate. Qed.
Lemma length_one {B} (l : list B) : length l = 1 -> exists b, l = [b].
Proof. destruct l as [|b [|]]; try discriminate; eauto. Qed.

Lemma understood_op o : fine o -> understood run psem lookup_op HOpaque o.
Proof.
  intros Fi nq nb np. unfold lookup_op. destruct o as [t x]. cbn [o_type o_expr] in *.
  assert (G : forall t' x', match match decode_tket_op t' with Some op => Some (tket_dec op) | None => None end with
      | Some d => same_sem run psem {| o_type := t'; o_expr := x' |} nq nb np d | None => same_opaque run psem {| o_type := t'; o_expr := x' |} nq nb np (HOpaque {| o_type := t'; o_expr := x' |}) end).
  { intros t' x'. destruct (decode_tket_op t') as [op|] eqn:D; [|apply opaque_ok]. destruct (decode_encode _ _ D). apply gate_ok; auto. }
  destruct t; try apply (G _ x).
  - destruct (Nat.eqb_spec np 0) as [->|]; [|apply opaque_ok]. split; [intros ty [<-|[]]; auto|]. cbn [d_in d_out d_take d_drop d_op].
    change (qubits_of [TQ]) with 1. change (bits_of [TQ]) with 0. intros <- <- _ _ _ qs bs ps L1 L2 L3. destruct (length_one _ L1) as [q ->]. destruct bs; [|discriminate]. destruct ps; [|discriminate].
    cbn [firstn]. rewrite (a_noop _ _ _ _ _ _ _ _ A). cbn. split; auto. split; auto. apply (p_idle _ _ _ _ _ _ _ _ A); auto.
  - destruct (Nat.eqb_spec np 0) as [->|]; [|apply opaque_ok]. split.
    { cbn [d_out]. intros ty Hty. apply in_app_or in Hty. destruct Hty as [Hty|Hty]; apply repeat_spec in Hty; auto. }
    cbn [d_in d_out d_take d_drop d_op]. destruct (of_two TQ nq TB nb) as (-> & -> & ->). change (bits_of [TQ]) with 0. change (bits_of [TB]) with 1. rewrite Nat.mul_0_r, Nat.mul_1_r. cbn [Nat.add].
    intros _ _ _ _ Hb qs bs ps L1 L2 L3. assert (nb = 0) as -> by lia. destruct bs; [|discriminate]. destruct ps; [|discriminate]. cbn [firstn app]. rewrite (a_barrier _ _ _ _ _ _ _ _ A). cbn. split; auto. split; auto.
    apply (p_idle _ _ _ _ _ _ _ _ A); auto.
  - destruct x as [e|]; [|apply opaque_ok]. destruct (Fi eq_refl) as [Di|[n On]].
    + destruct (decode_clexpr e) as [b0|] eqn:De; [|apply opaque_ok]. pose proof (direct_straight e b0 Di De) as St. destruct (straight_decode e St) as (b & D & Ar & Sem). rewrite De in D. injection D as ->. destruct (Nat.eqb_spec np 0) as [->|]; [|apply opaque_ok].
      split; [intros ty [<-|[]]; auto|]. cbn [d_in d_out d_take d_drop d_op bool_dec]. destruct (of_repeat (bool_inputs b) TT) as (-> & -> & ->).
      change (qubits_of [TT]) with 0. change (bits_of [TT]) with 1. change (params_of [TT]) with 0. rewrite Nat.mul_0_r, Nat.mul_1_r.
      intros <- _ _ _ Hb qs bs ps L1 L2 L3. destruct qs; [|discriminate]. destruct ps; [|discriminate]. cbn zeta.
      rewrite (a_bool _ _ _ _ _ _ _ _ A) by (rewrite firstn_length, L2, <- Hb; destruct b; reflexivity). cbn [fst snd length].
      split; auto. split; [lia|]. rewrite (p_clexpr _ _ _ _ _ _ _ _ A), (Sem (map tob bs)) by (rewrite map_length; lia).
      rewrite map_app, <- !firstn_map, map_map. rewrite (map_ext _ (fun v => v) (a_inj _ _ _ _ _ _ _ _ A)), map_id. reflexivity.
    + unfold decode_clexpr. rewrite On. destruct (_ && _); apply opaque_ok.
Qed.
End Tables.
