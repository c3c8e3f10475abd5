(** Properties of the container unpacker and the runtime barrier. *)
From Coq Require Import List Arith Bool Lia.
From Verif Require Import UnpackModel UnpackSpec UnpackProofs UnpackRev UnpackMain.
Import ListNotations.

(** ** C44: unpacking and repacking containers

    The type analysis is right for every type: it finds exactly the types that hold
    elements, and counts their wires. *)
Theorem C44_wires : forall elem t,
  (contains_element_type elem t = true <-> holds elem t) /\
  (forall c, num_unpacked_wires elem t = c <-> wires_of elem t c).
Proof. exact C44_wires_pf. Qed.

(** Every full value of a type meant for the unpacker comes apart into wires of the row the
    analysis predicts, in number and in type; the wires of the element type carry the
    elements of the value from left to right, and repacking the wires gives the value
    back.  Missing for the full property: types with bare options, arrays of options of
    other elements than qubits, and arrays of elements that need no wire ([C44_refuted]). *)
Theorem C44_partial : forall elem t v,
  simple elem t -> fits t v -> full elem t v ->
  exists ws,
    unpack elem t v = Ok ws /\
    wires_of elem t (length ws) /\
    map fst ws = match unpack_type elem t with Some row => row | None => [t] end /\
    elements elem t v (map snd (filter (fun w => ty_eqb (fst w) elem) ws)) /\
    repack elem t ws = Ok (t, v).
Proof. exact C44_partial_pf. Qed.

(** Conversely, any values of the predicted types can be packed into a value of the
    container type, and come out again when it is unpacked.  The parts of the container
    that are no elements are those of the wires. *)
Theorem C44_back_partial : forall elem t ws,
  simple elem t ->
  map fst ws = match unpack_type elem t with Some row => row | None => [t] end ->
  Forall (fun w => fits (fst w) (snd w)) ws ->
  exists v,
    repack elem t ws = Ok (t, v) /\ fits t v /\ full elem t v /\
    unpack elem t v = Ok ws /\
    (forall v0 ws0, fits t v0 -> full elem t v0 -> unpack elem t v0 = Ok ws0 ->
       Forall2 (fun w0 w => fst w0 = fst w /\ (fst w <> elem -> snd w0 = snd w)) ws0 ws ->
       frame elem t v0 v).
Proof. exact C44_back_partial_pf. Qed.

(** The same for rows of types, the interface other passes use. *)
Theorem C44_row_partial : forall elem ts vs,
  Forall (simple elem) ts -> fits_row ts vs -> full_row elem ts vs ->
  exists ws,
    unpack_row elem ts vs = Ok ws /\
    wires_row elem ts (length ws) /\
    elements_row elem ts vs (map snd (filter (fun w => ty_eqb (fst w) elem) ws)) /\
    repack_row elem ts ws = Ok (combine ts vs).
Proof. exact C44_row_partial_pf. Qed.

(** A value with a part missing, an empty option or a borrowed cell, makes the program panic
    when it is unpacked; no other value takes its place. *)
Theorem C44_missing_partial : forall elem t v,
  simple elem t -> fits t v -> ~ full elem t v -> unpack elem t v = RunPanic.
Proof. exact C44_missing_partial_pf. Qed.

(** Without the restriction the property is false.
    - A tuple of an optional qubit and a qubit holds a qubit, but the function built for it
      has other outputs than declared.
    - An array of empty arrays makes the repacking panic.
    - Arrays of options of another element type are unpacked to the options.
    - An optional qubit on its own is unpacked too, with a panic at run time when it is
      empty, although the analysis finds no element in it. *)
Theorem C44_refuted :
  (holds Qb (Tup [Opt Qb; Qb]) /\
   forall v, fits (Tup [Opt Qb; Qb]) v -> forall ws, unpack Qb (Tup [Opt Qb; Qb]) v <> Ok ws) /\
  (forall n, holds Qb (Arr AStd n (Arr AStd 0 Qb)) /\
             forall ws, repack Qb (Arr AStd n (Arr AStd 0 Qb)) ws = HostPanic) /\
  (forall n v, holds (Base 0) (Arr AStd (S n) (Opt (Base 0))) /\
             (fits (Arr AStd (S n) (Opt (Base 0))) v ->
              forall ws, unpack (Base 0) (Arr AStd (S n) (Opt (Base 0))) v <> Ok ws)) /\
  (~ holds Qb (Opt Qb) /\ unpack Qb (Opt Qb) VNone = RunPanic /\
   exists ws, unpack Qb (Opt Qb) (VSome (VAtom 0)) = Ok ws /\ map fst ws = [Qb] /\ unpack_type Qb (Opt Qb) = None).
Proof. exact C44_refuted_pf. Qed.

(** ** C55: the inserted runtime barrier

    When every type of the row that holds qubits is one the unpacker works for, the graph
    put behind a barrier node is built, hands exactly the qubits of the whole row to the
    runtime barrier, each once and from left to right, and puts what the barrier returns in
    their places; everything else passes unchanged.  Missing: the types excluded in C44. *)
Theorem C55_partial : forall barrier ts vs qs,
  returns_qubits barrier ->
  (forall t, In t ts -> holds Qb t -> simple Qb t) ->
  fits_row ts vs ->
  (forall t v, In (t, v) (combine ts vs) -> holds Qb t -> full Qb t v) ->
  elements_row Qb ts vs qs ->
  exists vs',
    insert_runtime_barrier barrier ts vs = Ok vs' /\
    fits_row ts vs' /\
    elements_row Qb ts vs' (barrier qs) /\
    frame_row Qb ts vs vs'.
Proof. exact C55_partial_pf. Qed.

(** In particular a barrier that returns the qubits it was given leaves all values alone. *)
Theorem C55_transparent_partial : forall barrier ts vs,
  (forall qs, Forall (fits Qb) qs -> barrier qs = qs) ->
  (forall t, In t ts -> holds Qb t -> simple Qb t) ->
  fits_row ts vs ->
  (forall t v, In (t, v) (combine ts vs) -> holds Qb t -> full Qb t v) ->
  insert_runtime_barrier barrier ts vs = Ok vs.
Proof. exact C55_transparent_partial_pf. Qed.

(** Barriers over the other types are not compiled: an array of empty arrays of qubits
    crashes the compiler, and a tuple with an optional qubit is a build error. An optional
    qubit is not seen by the barrier. *)
Theorem C55_refuted :
  (forall barrier n, returns_qubits barrier ->
     insert_runtime_barrier barrier [Arr AStd n (Arr AStd 0 Qb)] [VArr (repeat (Some (VArr [])) n)] = HostPanic) /\
  (forall barrier a b, insert_runtime_barrier barrier [Tup [Opt Qb; Qb]] [VTup [VSome (VAtom a); VAtom b]] = BuildErr) /\
  (forall barrier a, insert_runtime_barrier barrier [Opt Qb] [VSome (VAtom a)] = Ok [VSome (VAtom a)]).
Proof. exact C55_refuted_pf. Qed.

(** ** Instances *)

(** A tuple of a borrow array of pairs, of an array of optional qubits and of a number. *)
Definition sample : ty :=
  Tup [Arr ABorrow 2 (Tup [Qb; Base 0]); Base 1; Arr AVal 2 (Opt Qb); Arr AStd 3 (Base 2)].
Definition sample_value : value :=
  VTup [VArr [Some (VTup [VAtom 10; VAtom 0]); Some (VTup [VAtom 11; VAtom 1])]; VAtom 5;
        VArr [Some (VSome (VAtom 12)); Some (VSome (VAtom 13))];
        VArr [Some (VAtom 7); Some (VAtom 8); Some (VAtom 9)]].

Lemma base_not_holds k : ~ holds Qb (Base k).
Proof. intros H. inversion H. Qed.

Example sample_simple : simple Qb sample.
Proof.
  apply simple_tup. repeat apply Forall_cons; try apply Forall_nil.
  - apply simple_arr with 2; try congruence.
    + apply simple_tup. repeat apply Forall_cons; try apply Forall_nil; [apply simple_self|].
      apply simple_none; try congruence. apply base_not_holds.
    + apply holds_tup with Qb; [left; auto|constructor].
    + apply wires_tup; try congruence.
      * apply holds_tup with Qb; [left; auto|constructor].
      * apply (wrow_cons Qb Qb [Base 0] 1 1); [constructor|].
        apply (wrow_cons Qb (Base 0) [] 1 0); constructor. apply base_not_holds.
  - apply simple_none; try congruence. apply base_not_holds.
  - apply simple_opts. auto.
  - apply simple_none; try congruence. intros H. inversion H; subst. eapply base_not_holds; eauto.
Qed.

Example sample_fits : fits sample sample_value.
Proof. unfold sample, sample_value. repeat constructor. Qed.

Example sample_full : full Qb sample sample_value.
Proof.
  apply full_tup. repeat apply frow_cons; try apply frow_nil.
  - apply full_arr; [congruence|].
    repeat apply fcells_cons; try apply fcells_nil; apply full_tup;
      repeat apply frow_cons; try apply frow_nil; try apply full_self; apply full_none; apply base_not_holds.
  - apply full_none. apply base_not_holds.
  - apply full_opts. repeat constructor; eauto.
  - apply full_none. intros H. inversion H; subst. eapply base_not_holds; eauto.
Qed.

Example sample_unpacked :
  unpack Qb sample sample_value =
    Ok [(Qb, VAtom 10); (Base 0, VAtom 0); (Qb, VAtom 11); (Base 0, VAtom 1); (Base 1, VAtom 5);
        (Qb, VAtom 12); (Qb, VAtom 13); (Arr AStd 3 (Base 2), VArr [Some (VAtom 7); Some (VAtom 8); Some (VAtom 9)])].
Proof. reflexivity. Qed.

(** A borrowed cell and an empty option. *)
Example missing_cell :
  fits (Arr ABorrow 2 Qb) (VArr [Some (VAtom 1); None]) /\ ~ full Qb (Arr ABorrow 2 Qb) (VArr [Some (VAtom 1); None]) /\ fits (Arr AStd 2 (Opt Qb)) (VArr [Some (VSome (VAtom 1)); Some VNone]) /\ ~ full Qb (Arr AStd 2 (Opt Qb)) (VArr [Some (VSome (VAtom 1)); Some VNone]).
Proof.
  split; [repeat constructor|]. split; [|split; [repeat constructor|]].
  - intros H. apply full_arr_inv in H as (vs & E & _); try congruence; try constructor.
    destruct vs as [|a [|b vs]]; discriminate.
  - intros H. apply full_opts_inv in H as (vs & E); try congruence.
    destruct vs as [|a [|b vs]]; discriminate.
Qed.

(** A barrier that reverses its qubits. *)
Example sample_barrier : returns_qubits (@rev value).
Proof.
  intros qs F. split; [|apply rev_length].
  apply Forall_forall. intros x X. apply in_rev in X. rewrite Forall_forall in F. auto.
Qed.

Example sample_inserted :
  insert_runtime_barrier (@rev value) [sample; Base 0; Qb] [sample_value; VAtom 3; VAtom 14] =
  Ok [VTup [VArr [Some (VTup [VAtom 14; VAtom 0]); Some (VTup [VAtom 13; VAtom 1])]; VAtom 5;
        VArr [Some (VSome (VAtom 12)); Some (VSome (VAtom 11))];
        VArr [Some (VAtom 7); Some (VAtom 8); Some (VAtom 9)]]; VAtom 3; VAtom 10].
Proof. reflexivity. Qed.

(** Another element type than the qubit. *)
Example other_element : simple (Base 4) (Tup [Arr AStd 2 (Base 4); Qb]).
Proof.
  apply simple_tup. repeat apply Forall_cons; try apply Forall_nil.
  - apply simple_arr with 1; try constructor; try congruence.
  - apply simple_none; try congruence. intros H. inversion H.
Qed.

Print Assumptions C44_wires.
Print Assumptions C44_partial.
Print Assumptions C44_back_partial.
Print Assumptions C44_row_partial.
Print Assumptions C44_missing_partial.
Print Assumptions C44_refuted.
Print Assumptions C55_partial.
Print Assumptions C55_transparent_partial.
Print Assumptions C55_refuted.
