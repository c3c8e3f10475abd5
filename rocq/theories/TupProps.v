(** Properties C59: removal of tuples that are packed and then unpacked. *)
From Coq Require Import List Bool Arith Lia.
From Verif Require Import PatSpec TupModel TupSpec TupProofs TupSim TupLoop TupMain.
Import ListNotations.

(** ** C59 *)

(** A rewrite that is found keeps the region valid and well typed (with the same types at its inputs and outputs; values that cannot be
    copied are still used at most once), and the region computes the same values and effects: for all regions, other operations, and values
    in which unpacking a packed tuple gives back its elements. *)
Theorem C59_rewrite : forall O fits (c : region O) ty x r fresh,
  valid c -> typed fits ty c -> In x (t_nodes c) -> make_rewrite c x = Rewrite r -> ~ In fresh (map t_id (t_nodes c)) ->
  valid (apply c r fresh) /\
  (exists ty', typed fits ty' (apply c r fresh) /\ map ty' (t_outs (apply c r fresh)) = map ty (t_outs c) /\ forall k, ty' (Inp k) = ty (Inp k)) /\
  forall (V G : Type) (pack : list V -> V) (unpack : V -> list V), (forall l, unpack (pack l) = l) -> forall (sem : O -> list V -> G -> list V * G) dummy inputs g,
    results pack unpack sem dummy (apply c r fresh) inputs g = results pack unpack sem dummy c inputs g.
Proof. exact C59_rewrite_pf. Qed.

(** Applying rewrites until none is found ends after at most as many rewrites as there are unpack nodes. Unless it panics, the result is valid, well
    typed and computes the same, and no tuple is packed and directly unpacked any more. *)
Theorem C59_loop_partial : forall O fits (c : region O) ty (V G : Type) (pack : list V -> V) (unpack : V -> list V) (sem : O -> list V -> G -> list V * G) dummy,
  valid c -> typed fits ty c -> (forall l, unpack (pack l) = l) ->
  exists o, untuple (length (filter (fun x => is_unpack_tuple (t_op x)) (t_nodes c))) c = Some o /\ forall d, o = Some d -> valid d /\
    (exists ty', typed fits ty' d /\ map ty' (t_outs d) = map ty (t_outs c) /\ forall k, ty' (Inp k) = ty (Inp k)) /\ t_inputs d = t_inputs c /\
    (forall inputs g, results pack unpack sem dummy d inputs g = results pack unpack sem dummy c inputs g) /\
    (forall x y n m, In x (t_nodes d) -> In y (t_nodes d) -> t_op x = MakeTuple n -> t_op y = UnpackTuple m -> ~ In (Out (t_id x) 0) (t_args y)).
Proof. exact C59_loop_partial_pf. Qed.

(** When building the rewrite panics, exactly: the tuple has unpack nodes, and two or more other uses, or an element of an
    unpacked tuple is not used. *)
Theorem C59_panics : forall O fits (c : region O) ty x n, valid c -> typed fits ty c -> In x (t_nodes c) -> t_op x = MakeTuple n ->
  (make_rewrite c x = PanicRewrite <->
   (exists y m, In y (t_nodes c) /\ t_op y = UnpackTuple m /\ t_args y = [Out (t_id x) 0]) /\
   (2 <= length (filter (fun l => match l with Some y => negb (is_unpack_tuple (t_op y)) | None => true end) (links c (Out (t_id x) 0))) \/
    exists y j, In y (t_nodes c) /\ t_op y = UnpackTuple n /\ t_args y = [Out (t_id x) 0] /\ j < n /\ ~ In (Out (t_id y) j) (all_uses c))).
Proof. exact C59_panics_pf. Qed.

(** The loop panics for valid, well typed regions: one where an element of the unpacked tuple is not used, and one where the tuple is also used twice. *)
Theorem C59_panic_refuted : ~ (forall O fits (c : region O) ty, valid c -> typed fits ty c -> exists d, untuple (length (t_nodes c)) c = Some (Some d)).
Proof. exact C59_panic_refuted_pf. Qed.

(** ** Instances *)

(** A linear and a copyable value are packed, unpacked and used; a second tuple is unpacked and returned. *)
Definition sample : region nat :=
  {| t_inputs := 2;
     t_nodes := [{| t_id := 0; t_op := MakeTuple 2; t_args := [Inp 0; Inp 1] |}; {| t_id := 1; t_op := UnpackTuple 2; t_args := [Out 0 0] |}; {| t_id := 2; t_op := OtherOp 7 1; t_args := [Out 1 0] |};
                 {| t_id := 3; t_op := MakeTuple 2; t_args := [Out 1 1; Out 1 1] |}; {| t_id := 4; t_op := UnpackTuple 2; t_args := [Out 3 0] |}; {| t_id := 5; t_op := OtherOp 8 1; t_args := [Out 4 1; Out 4 0] |}];
     t_outs := [Out 2 0; Out 5 0; Out 3 0] |}.
Definition q := Base true 0.
Definition b := Base false 1.
Definition sample_ty (w : source) : typ :=
  match w with Inp 0 => q | Out 0 0 => Tuple [q; b] | Out 1 0 => q | Out 2 0 => q | Out 3 0 => Tuple [b; b] | _ => b end.
Definition sample_fits (o : nat) (ts us : list typ) : Prop := match o with 7 => ts = [q] /\ us = [q] | 8 => ts = [b; b] /\ us = [b] | _ => False end.
Example sample_valid : valid sample.
Proof. apply valid_ok. reflexivity. Qed.
Example sample_typed : typed sample_fits sample_ty sample.
Proof.
  constructor.
  - simpl. intros x I. repeat destruct I as [<-|I]; try contradiction; unfold node_typed; simpl; auto;
    eexists; eexists; (split; [reflexivity|]); simpl; (split; [reflexivity|]); (split; [reflexivity|]); intros [|[|j]] d L; auto; lia.
  - intros w L. assert (C : w = Inp 0 \/ w = Out 0 0 \/ w = Out 1 0 \/ w = Out 2 0).
    { revert L. unfold sample_ty. destruct w as [[|k]|[|[|[|[|n]]]] [|j]]; simpl; auto; discriminate. }
    destruct C as [->|[->|[->| ->]]]; vm_compute; auto.
Qed.
(** Both tuples are removed; the second pack node stays, because its tuple is returned. *)
Example sample_untuple : exists d, untuple 2 sample = Some (Some d) /\ map t_op (t_nodes d) = [OtherOp 7 1; MakeTuple 2; OtherOp 8 1] /\
  map t_args (t_nodes d) = [[Inp 0]; [Inp 1; Inp 1]; [Inp 1; Inp 1]].
Proof. let r := eval vm_compute in (untuple 2 sample) in match r with Some (Some ?d) => exists d end. vm_compute. auto. Qed.
Example C59_instance : exists o, untuple 2 sample = Some o /\ forall d, o = Some d -> forall (V G : Type) pack unpack (sem : nat -> list V -> G -> list V * G) dummy inputs g, (forall l, unpack (pack l) = l) ->
  results pack unpack sem dummy d inputs g = results pack unpack sem dummy sample inputs g.
Proof.
  destruct sample_untuple as (d & E & _). exists (Some d). split; auto. intros d' [= <-] V G pack unpack sem dummy inputs g U.
  destruct (C59_loop_partial nat sample_fits sample sample_ty V G pack unpack sem dummy sample_valid sample_typed U) as (o & Eo & So).
  change (length (filter (fun x => is_unpack_tuple (t_op x)) (t_nodes sample))) with 2 in Eo. rewrite E in Eo. injection Eo as <-. destruct (So d eq_refl) as (_ & _ & _ & R & _). auto.
Qed.
Print Assumptions C59_rewrite.
Print Assumptions C59_loop_partial.
Print Assumptions C59_panics.
Print Assumptions C59_panic_refuted.
