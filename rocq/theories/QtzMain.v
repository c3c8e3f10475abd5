(** Proofs of the properties of the loader for circuits written by quartz, C88 and C89. *)
From Coq Require Import String List Bool Arith Lia Permutation.
From Verif Require Import QtzModel QtzSpec QtzProofs QtzProofs2.
Import ListNotations.

Lemma C88_meaning_partial_pf :
  forall d, well_formed d ->
    exists c, load d = Some c /\ well_typed c /\ c_qubits c = n_qb d /\ c_params c = n_input_param d /\
      forall (V : Type) (dflt : V) sem inputs, arity sem -> length inputs = n_qb d + n_input_param d ->
        quartz sem d inputs = Some (eval dflt sem c inputs).
Proof.
 exact load_ok. Qed.

Lemma C88_typed_pf :
  (forall d c, load d = Some c -> well_typed c) /\ (forall c, well_typed c <-> validate c = true).
Proof.
 split; [exact load_typed|]. intros c. symmetry. apply validate_iff. Qed.

Lemma C88_names_pf :
  forall d c, load d = Some c -> map (fun n => op_name (fst n)) (c_nodes c) = map opstr (circ d).
Proof.
 exact load_names. Qed.

Lemma C88_renamed_refuted_pf :
  exists d c, load d = Some c /\ exists (sem : op -> list nat -> list nat) inputs r,
    arity sem /\ length inputs = n_qb d + n_input_param d /\ quartz sem d inputs = Some r /\ eval 0 sem c inputs <> r.
Proof.
  exists {| n_qb := 2; n_input_param := 0; ids := [0]; circ := [{| opstr := "cx"; op_outputs := [Q 1; Q 0]; op_inputs := [Q 0; Q 1] |}] |}.
  exists {| c_qubits := 2; c_params := 0; c_nodes := [(OCX, [WIn 0; WIn 1])]; c_outputs := [WOut 0 0; WOut 0 1] |}.
  split; [reflexivity|]. exists (fun o vs => firstn (length (sig_out o)) (vs ++ [0; 0])), [5; 7], [7; 5].
  split; [|split; [reflexivity|split; [reflexivity|discriminate]]].
  intros o vs. apply firstn_length_le. rewrite app_length. destruct o; simpl; lia.
Qed.

Lemma C89_classes_partial_pf :
  forall classes keys css,
    Forall2 (fun l k => exists d r rest, l = d :: r /\ ids d = k :: rest) classes keys -> NoDup keys ->
    Forall2 (fun l cs => Forall2 (fun d c => load d = Some c) l cs) classes css ->
    load_set classes = Some (combine keys css) /\
    forall classes', Permutation classes classes' -> exists m, load_set classes' = Some m /\ Permutation m (combine keys css).
Proof.
  intros classes keys css FK ND FC.
  assert (AS : Forall2 (fun l e => load_class l = Some e) classes (combine keys css)).
  { clear ND. revert css FC. induction FK as [|l k classes keys (d & r & rest & -> & I) FK IH]; intros css FC; inversion FC; subst; constructor; auto. eapply class_ok; eauto. }
  assert (LK : length css = length keys). { clear - FK FC. revert css FC. induction FK; intros css FC; inversion FC; subst; simpl; auto. }
  assert (FST : map fst (combine keys css) = keys).
  { clear - LK. revert css LK. induction keys as [|k keys IH]; intros [|c css] L; simpl in *; try discriminate; auto. f_equal. apply IH. lia. }
  assert (RUN : forall cl m, Forall2 (fun l e => load_class l = Some e) cl m -> NoDup (map fst m) -> load_set cl = Some m).
  { intros cl m F N. unfold load_set. rewrite (all_some_f2 _ _ _ F). rewrite inserts_new; [reflexivity|exact N]. }
  split; [apply RUN; [exact AS|rewrite FST; exact ND]|].
  intros classes' PM.
  assert (PERM : exists m, Forall2 (fun l e => load_class l = Some e) classes' m /\ Permutation m (combine keys css)).
  { clear - AS PM. revert AS. generalize (combine keys css). clear keys css. induction PM as [|x l l' PM IH|x y l|l1 l2 l3 P1 IH1 P2 IH2]; intros m AS.
    - inversion AS; subst. exists []. split; constructor.
    - inversion AS as [|? e ? m' E AS']; subst. destruct (IH _ AS') as (m2 & A & B). exists (e :: m2). split; [constructor; auto|now constructor].
    - inversion AS as [|? e1 ? m1 E1 AS1]; subst. inversion AS1 as [|? e2 ? m2 E2 AS2]; subst. exists (e2 :: e1 :: m2). split; [constructor; [auto|constructor; auto]|constructor].
    - destruct (IH1 _ AS) as (m1 & A & B). destruct (IH2 _ A) as (m2 & C & D). exists m2. split; [exact C|]. now rewrite D. }
  destruct PERM as (m & A & B). exists m. split; [|exact B]. apply RUN; [exact A|]. eapply Permutation_NoDup; [|exact ND]. rewrite <- FST. apply Permutation_map. now symmetry.
Qed.

Lemma C89_last_pf :
  forall classes m, load_set classes = Some m ->
    exists l, Forall2 (fun cl e => (exists d r rest, cl = d :: r /\ ids d = fst e :: rest) /\ Forall2 (fun d c => load d = Some c) cl (snd e)) classes l /\
      forall k, find_id m k = find_id (rev l) k.
Proof.
  intros classes m E. unfold load_set in E. destruct (all_some (map load_class classes)) as [l|] eqn:A; [|discriminate]. injection E as <-. exists l. split.
  - apply all_some_inv in A. clear - A. induction A as [|cl (k, cs) classes l E A IH]; constructor; auto. now apply class_inv.
  - intros k. rewrite find_inserts. destruct (find_id (rev l) k); reflexivity.
Qed.

Lemma C89_lost_refuted_pf :
  exists a b c1 c2, load_class a = Some (0, [c1]) /\ load_class b = Some (0, [c2]) /\ c1 <> c2 /\
    load_set [a; b] = Some [(0, [c2])] /\ load_set [b; a] = Some [(0, [c1])].
Proof.
  exists [{| n_qb := 1; n_input_param := 0; ids := [0]; circ := [{| opstr := "x"; op_outputs := [Q 0]; op_inputs := [Q 0] |}] |}].
  exists [{| n_qb := 1; n_input_param := 0; ids := [0]; circ := [{| opstr := "h"; op_outputs := [Q 0]; op_inputs := [Q 0] |}] |}].
  do 2 eexists. split; [reflexivity|]. split; [reflexivity|]. split; [discriminate|]. split; reflexivity.
Qed.

