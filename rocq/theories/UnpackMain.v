(** Proofs of the properties of the container unpacker and the runtime barrier. *)
From Coq Require Import List Arith Bool Lia.
From Verif Require Import UnpackModel UnpackSpec UnpackProofs UnpackRev.
Import ListNotations.

Lemma C44_wires_pf : forall elem t,
  (contains_element_type elem t = true <-> holds elem t) /\
  (forall c, num_unpacked_wires elem t = c <-> wires_of elem t c).
Proof.
  intros elem t. split; [apply contains_holds|]. intros c. rewrite num_urow. split.
  - intros <-. apply wires_total.
  - intros W. symmetry. apply wires_unique. auto.
Qed.

Lemma C44_partial_pf : forall elem t v,
  simple elem t -> fits t v -> full elem t v ->
  exists ws,
    unpack elem t v = Ok ws /\
    wires_of elem t (length ws) /\
    map fst ws = match unpack_type elem t with Some row => row | None => [t] end /\
    elements elem t v (map snd (filter (fun w => ty_eqb (fst w) elem) ws)) /\
    repack elem t ws = Ok (t, v).
Proof.
  intros elem t v S F L. destruct (roundtrip elem t v S F L) as (ws & U & M & E & R).
  exists ws. split; auto. split.
  - replace (length ws) with (length (urow elem t)); [apply wires_total|].
    rewrite <- M, map_length. auto.
  - split; [exact M|]. split; auto.
Qed.

Lemma C44_back_partial_pf : forall elem t ws,
  simple elem t ->
  map fst ws = match unpack_type elem t with Some row => row | None => [t] end ->
  Forall (fun w => fits (fst w) (snd w)) ws ->
  exists v,
    repack elem t ws = Ok (t, v) /\ fits t v /\ full elem t v /\
    unpack elem t v = Ok ws /\
    (forall v0 ws0, fits t v0 -> full elem t v0 -> unpack elem t v0 = Ok ws0 ->
       Forall2 (fun w0 w => fst w0 = fst w /\ (fst w <> elem -> snd w0 = snd w)) ws0 ws ->
       frame elem t v0 v).
Proof.
  intros elem t ws S M F. exact (repack_unpack elem t ws S (conj M F)).
Qed.

Lemma C44_row_partial_pf : forall elem ts vs,
  Forall (simple elem) ts -> fits_row ts vs -> full_row elem ts vs ->
  exists ws,
    unpack_row elem ts vs = Ok ws /\
    wires_row elem ts (length ws) /\
    elements_row elem ts vs (map snd (filter (fun w => ty_eqb (fst w) elem) ws)) /\
    repack_row elem ts ws = Ok (combine ts vs).
Proof.
  intros elem ts vs S F L.
  destruct (good_row_all elem ts vs S F L) as (ws & U & M & E & R & _).
  exists ws. split; auto. split; [|split; auto].
  replace (length ws) with (length (flat_map (urow elem) ts)).
  - clear. induction ts; simpl; [constructor|]. rewrite app_length. constructor; auto. apply wires_total.
  - rewrite <- M, map_length. auto.
Qed.

Lemma C44_missing_partial_pf : forall elem t v,
  simple elem t -> fits t v -> ~ full elem t v -> unpack elem t v = RunPanic.
Proof.
  intros elem t v S F N. destruct (full_or_panic elem t v S F); tauto.
Qed.

Lemma C44_refuted_pf :
  (holds Qb (Tup [Opt Qb; Qb]) /\
   forall v, fits (Tup [Opt Qb; Qb]) v -> forall ws, unpack Qb (Tup [Opt Qb; Qb]) v <> Ok ws) /\
  (forall n, holds Qb (Arr AStd n (Arr AStd 0 Qb)) /\
             forall ws, repack Qb (Arr AStd n (Arr AStd 0 Qb)) ws = HostPanic) /\
  (forall n v, holds (Base 0) (Arr AStd (S n) (Opt (Base 0))) /\
             (fits (Arr AStd (S n) (Opt (Base 0))) v ->
              forall ws, unpack (Base 0) (Arr AStd (S n) (Opt (Base 0))) v <> Ok ws)) /\
  (~ holds Qb (Opt Qb) /\ unpack Qb (Opt Qb) VNone = RunPanic /\
   exists ws, unpack Qb (Opt Qb) (VSome (VAtom 0)) = Ok ws /\ map fst ws = [Qb] /\ unpack_type Qb (Opt Qb) = None).
Proof.
  split; [|split; [|split]].
  - split. { apply holds_tup with Qb; [right; left; auto|constructor]. }
    intros v F ws. inversion F as [| |ts vs Fr| | |]; subst.
    inversion Fr as [|? ? a ? Fa Fr1]; subst. inversion Fr1 as [|? ? b ? Fb Fr2]; subst.
    inversion Fr2; subst. inversion Fa; subst; simpl; discriminate.
  - intros n. split; [apply holds_arr, holds_arr; constructor|]. intros ws.
    simpl. unfold num_unpacked_wires. simpl. reflexivity.
  - intros n v. split; [constructor|]. intros F ws.
    inversion F as [| | | | |k n' t l Ln FC]; subst. destruct l as [|o l]; [discriminate|].
    inversion FC; subst. simpl. unfold array_elems, check_row. simpl.
    destruct (all_ok (map _ l)); simpl; try discriminate.
    destruct (all_ok _); simpl; discriminate.
  - split; [intros H; inversion H|]. split; [reflexivity|].
    eexists. split; [reflexivity|]. auto.
Qed.

Lemma C55_partial_pf : forall barrier ts vs qs,
  returns_qubits barrier ->
  (forall t, In t ts -> holds Qb t -> simple Qb t) ->
  fits_row ts vs ->
  (forall t v, In (t, v) (combine ts vs) -> holds Qb t -> full Qb t v) ->
  elements_row Qb ts vs qs ->
  exists vs',
    insert_runtime_barrier barrier ts vs = Ok vs' /\
    fits_row ts vs' /\
    elements_row Qb ts vs' (barrier qs) /\
    frame_row Qb ts vs vs'.
Proof.
  intros barrier ts vs qs R. apply (insert_ok barrier R).
Qed.

Lemma C55_transparent_partial_pf : forall barrier ts vs,
  (forall qs, Forall (fits Qb) qs -> barrier qs = qs) ->
  (forall t, In t ts -> holds Qb t -> simple Qb t) ->
  fits_row ts vs ->
  (forall t v, In (t, v) (combine ts vs) -> holds Qb t -> full Qb t v) ->
  insert_runtime_barrier barrier ts vs = Ok vs.
Proof.
  intros barrier ts vs R. apply (insert_id barrier R).
Qed.

Lemma C55_refuted_pf :
  (forall barrier n, returns_qubits barrier ->
     insert_runtime_barrier barrier [Arr AStd n (Arr AStd 0 Qb)] [VArr (repeat (Some (VArr [])) n)] = HostPanic) /\
  (forall barrier a b, insert_runtime_barrier barrier [Tup [Opt Qb; Qb]] [VTup [VSome (VAtom a); VAtom b]] = BuildErr) /\
  (forall barrier a, insert_runtime_barrier barrier [Opt Qb] [VSome (VAtom a)] = Ok [VSome (VAtom a)]).
Proof.
  split; [|split].
  - intros barrier n RQ. destruct (RQ [] (Forall_nil _)) as [_ L0].
    unfold insert_runtime_barrier, qubit_containers. simpl. unfold contains_element_type. simpl.
    unfold packing. cbn [unpack_row].
    assert (U : unpack Qb (Arr AStd n (Arr AStd 0 Qb)) (VArr (repeat (Some (VArr [])) n)) = Ok []).
    { rewrite (unpack_arr_eq Qb _ _ _ _ []); try congruence.
      2: { simpl. f_equal. induction n; auto. }
      assert (E : repeat (Some (VArr [])) n = map Some (repeat (VArr []) n)) by (induction n; simpl; congruence).
      rewrite E, array_elems_some. cbn [bind].
      assert (R : unpack_row Qb (map (fun _ => Arr AStd 0 Qb) (repeat (VArr []) n)) (repeat (VArr []) n) = Ok []).
      { clear. induction n; simpl; auto. rewrite IHn. auto. }
      rewrite R. reflexivity. }
    rewrite U. simpl. destruct (barrier []); reflexivity.
  - intros. reflexivity.
  - intros. reflexivity.
Qed.

