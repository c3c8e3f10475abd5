(** Proofs of the properties C59: removal of tuples that are packed and then unpacked. *)
From Coq Require Import List Bool Arith Lia.
From Verif Require Import PatSpec TupModel TupSpec TupProofs TupSim TupLoop.
Import ListNotations.

Lemma C59_rewrite_pf : forall O fits (c : region O) ty x r fresh,
  valid c -> typed fits ty c -> In x (t_nodes c) -> make_rewrite c x = Rewrite r -> ~ In fresh (map t_id (t_nodes c)) ->
  valid (apply c r fresh) /\
  (exists ty', typed fits ty' (apply c r fresh) /\ map ty' (t_outs (apply c r fresh)) = map ty (t_outs c) /\ forall k, ty' (Inp k) = ty (Inp k)) /\
  forall (V G : Type) (pack : list V -> V) (unpack : V -> list V), (forall l, unpack (pack l) = l) -> forall (sem : O -> list V -> G -> list V * G) dummy inputs g,
    results pack unpack sem dummy (apply c r fresh) inputs g = results pack unpack sem dummy c inputs g.
Proof.
  intros O fits c ty x r fresh Hv Ht Hx Hr Hf. destruct (rewrite_pack O c x) as (n & Ho); [congruence|]. split; [eapply apply_valid; eauto|]. split.
  - exists (new_ty O ty x fresh). eapply apply_typed; eauto.
  - intros V G pack unpack E sem dummy inputs g. eapply apply_results; eauto.
Qed.

Lemma C59_loop_partial_pf : forall O fits (c : region O) ty (V G : Type) (pack : list V -> V) (unpack : V -> list V) (sem : O -> list V -> G -> list V * G) dummy,
  valid c -> typed fits ty c -> (forall l, unpack (pack l) = l) ->
  exists o, untuple (length (filter (fun x => is_unpack_tuple (t_op x)) (t_nodes c))) c = Some o /\ forall d, o = Some d -> valid d /\
    (exists ty', typed fits ty' d /\ map ty' (t_outs d) = map ty (t_outs c) /\ forall k, ty' (Inp k) = ty (Inp k)) /\ t_inputs d = t_inputs c /\
    (forall inputs g, results pack unpack sem dummy d inputs g = results pack unpack sem dummy c inputs g) /\
    (forall x y n m, In x (t_nodes d) -> In y (t_nodes d) -> t_op x = MakeTuple n -> t_op y = UnpackTuple m -> ~ In (Out (t_id x) 0) (t_args y)).
Proof.
  intros O fits c ty V G pack unpack sem dummy Hv Ht E. eapply loop_spec; eauto.
Qed.

Lemma C59_panics_pf : forall O fits (c : region O) ty x n, valid c -> typed fits ty c -> In x (t_nodes c) -> t_op x = MakeTuple n ->
  (make_rewrite c x = PanicRewrite <->
   (exists y m, In y (t_nodes c) /\ t_op y = UnpackTuple m /\ t_args y = [Out (t_id x) 0]) /\
   (2 <= length (filter (fun l => match l with Some y => negb (is_unpack_tuple (t_op y)) | None => true end) (links c (Out (t_id x) 0))) \/
    exists y j, In y (t_nodes c) /\ t_op y = UnpackTuple n /\ t_args y = [Out (t_id x) 0] /\ j < n /\ ~ In (Out (t_id y) j) (all_uses c))).
Proof.
  intros O fits c ty x n Hv Ht Hx Ho.
  assert (El : length (links c (Out (t_id x) 0)) - length (unpack_nodes c (Out (t_id x) 0)) =
    length (filter (fun l => match l with Some y => negb (is_unpack_tuple (t_op y)) | None => true end) (links c (Out (t_id x) 0)))).
  { rewrite unpack_nodes_len. rewrite (filter_split_len (is_unpack_link O) (links c (Out (t_id x) 0))) at 1. rewrite Nat.add_comm, Nat.add_sub. f_equal. apply filter_ext. intros [y|]; auto. }
  assert (Eu : unpack_nodes c (Out (t_id x) 0) <> [] <-> exists y m, In y (t_nodes c) /\ t_op y = UnpackTuple m /\ t_args y = [Out (t_id x) 0]).
  { split.
    - intros N. destruct (unpack_nodes c (Out (t_id x) 0)) as [|y l] eqn:E; [congruence|]. exists y, n. eapply in_us; eauto. rewrite E. left; auto.
    - intros (y & m & I & Oy & A) E. assert (U : In y (unpack_nodes c (Out (t_id x) 0))) by (eapply us_in; eauto; rewrite A; left; auto). rewrite E in U. destruct U. }
  assert (En : unused O c x n <-> exists y j, In y (t_nodes c) /\ t_op y = UnpackTuple n /\ t_args y = [Out (t_id x) 0] /\ j < n /\ ~ In (Out (t_id y) j) (all_uses c)).
  { split.
    - intros (y & j & I & J & N). exists y, j. destruct (in_us O c fits ty Ht x n Hx Ho y I) as (A & B & C). auto.
    - intros (y & j & I & Oy & A & J & N). exists y, j. repeat split; auto. eapply us_in; eauto. rewrite A. left; auto. }
  rewrite <- Eu, <- En, <- El. split.
  - intros P. assert (N : unpack_nodes c (Out (t_id x) 0) <> []) by (intros E; unfold make_rewrite in P; rewrite Ho in P; cbv zeta in P; rewrite E in P; discriminate). split; auto. eapply (proj1 (rewrite_cases O c Hv fits ty Ht x n Hx Ho N)); auto.
  - intros [N P]. apply (proj1 (rewrite_cases O c Hv fits ty Ht x n Hx Ho N)); auto.
Qed.

Lemma C59_panic_refuted_pf : ~ (forall O fits (c : region O) ty, valid c -> typed fits ty c -> exists d, untuple (length (t_nodes c)) c = Some (Some d)).
Proof.
  intros H.
  set (c := {| t_inputs := 2; t_nodes := [{| t_id := 0; t_op := @MakeTuple unit 2; t_args := [Inp 0; Inp 1] |}; {| t_id := 1; t_op := UnpackTuple 2; t_args := [Out 0 0] |}]; t_outs := [Out 1 0] |}).
  set (ty := fun w => match w with Out 0 0 => Tuple [Base false 0; Base false 0] | _ => Base false 0 end).
  destruct (H unit (fun _ _ _ => True) c ty) as (d & E).
  - apply valid_ok. reflexivity.
  - constructor.
    + simpl. intros x [<-|[<-|[]]]; unfold node_typed; simpl; auto. eexists. eexists. split; [reflexivity|]. simpl. split; [reflexivity|]. split; auto. intros [|[|j]] e L; auto. lia.
    + intros w L. exfalso. revert L. unfold ty. destruct w as [k|[|k] [|j]]; simpl; discriminate.
  - vm_compute in E. discriminate.
Qed.

