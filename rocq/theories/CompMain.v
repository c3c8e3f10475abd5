(** Proofs of the properties of compute operations and of functions in packages. *)
From Coq Require Import String List Arith Bool Lia.
From Verif Require Import CompModel CompSpec CompProofs.
Import ListNotations.
Local Open Scope string_scope.
Local Open Scope list_scope.

Lemma C101_found_partial_pf : forall ms name i n, name <> "" ->
  (find_function_in_modules ms name = LOk (i, n) <-> first_in ms name i n 0).
Proof.
  intros ms name i n h. unfold find_function_in_modules. rewrite (find_from_ok name h). split.
  - intros (k & -> & hk). exact hk.
  - intro hk. exists i. auto.
Qed.

Lemma C101_not_found_partial_pf : forall ms name, name <> "" ->
  (forall m, In m ms -> m_is_module m = true) ->
  ((exists l, find_function_in_modules ms name = LErr (FunctionNotFound l))
   <-> forall m, In m ms -> ~ defines m name).
Proof.
 intros ms name h hm. apply find_from_not_found; assumption. Qed.

Lemma C101_available_pf : forall ms name l,
  find_function_in_modules ms name = LErr (FunctionNotFound l) ->
  forall m f, In m ms -> defines m f -> In f l.
Proof.
  intros ms name l h m f hm (n & p & hd). apply find_from_listed in h. subst l. simpl.
  apply in_flat_map. exists m. split; [ exact hm | ].
  apply in_map_iff. exists (n, MDefn f p). auto.
Qed.

Lemma C101_listed_refuted_pf : exists ms l,
  find_function_in_modules ms "main" = LErr (FunctionNotFound l)
  /\ In "" l /\ forall m, In m ms -> ~ defines m "".
Proof.
  exists [ {| m_is_module := true; m_children := [(1, MDefn "f" 0); (2, MOther)] |} ].
  eexists. split; [ reflexivity | ]. split; [ right; left; reflexivity | ].
  intros m [ <- | [] ] (n & p & h). simpl in h.
  destruct h as [ h | [ h | [] ] ]; discriminate.
Qed.

Lemma C101_parametric_refuted_pf : forall name k p n m, name <> "" -> first_def m name n 0 ->
  m_is_module m = true ->
  find_function_in_modules
    [ {| m_is_module := true; m_children := [(k, MDefn name (S p))] |}; m ] name
  = LErr (Parametric k)
  /\ find_function_in_modules [ m ] name = LOk (0, n).
Proof.
  intros name k p n m h hf hm. split.
  - unfold find_function_in_modules, find_from at 1, find_function. simpl.
    rewrite String.eqb_refl. reflexivity.
  - apply C101_found_partial_pf; [ exact h | ]. apply first_in_here; assumption.
Qed.

Lemma C101_empty_refuted_pf : forall before n after,
  (forall c, In c before -> exists f p, snd c = MDefn f p /\ f <> "") ->
  find_function_in_modules
    [ {| m_is_module := true; m_children := before ++ (n, MOther) :: after |} ] ""
  = LErr (InvalidParent n).
Proof.
  intros before n after h. unfold find_function_in_modules. cbn [find_from].
  unfold find_function. cbn [m_is_module m_children negb].
  replace (find _ _) with (Some (n, MOther)); [ reflexivity | ].
  induction before as [ | c l IH ]; cbn [app find]; [ reflexivity | ].
  destruct (h c (or_introl eq_refl)) as (f & p & e & hf).
  apply String.eqb_neq in hf. rewrite e. cbn [func_name]. rewrite hf. apply IH.
  intros x hx. apply h. right. exact hx.
Qed.

Lemma C102_types_pf : forall ext c,
  of_type ext (custom_type ext c) = Some c
  /\ forall ext', ext <> ext' -> of_type ext' (custom_type ext c) = None.
Proof.
 intros. split; [ apply custom_type_back | intros; apply of_type_ext; assumption ]. Qed.

Lemma C102_operations_pf : forall o, instantiate (compute_op_def o) (type_args o) = Some o.
Proof.
 exact instantiate_args. Qed.

Lemma C102_arguments_pf : forall d args,
  (takes d args <-> exists o, instantiate d args = Some o)
  /\ forall o, instantiate d args = Some o -> compute_op_def o = d /\ type_args o = args.
Proof.
  intros d args. split.
  - split.
    + intro h. apply instantiate_takes in h. destruct h as (o & h & _). eauto.
    + intros (o & h). eapply instantiate_only. exact h.
  - intros o h. pose proof (instantiate_only _ _ _ h) as t. apply instantiate_takes in t.
    destruct t as (o' & h' & hd & ha). rewrite h in h'. inversion h'; subst. auto.
Qed.

Lemma C102_injective_pf : forall o o',
  compute_op_def o = compute_op_def o' -> type_args o = type_args o' -> o = o'.
Proof.
  intros o o' h1 h2. pose proof (instantiate_args o) as h. rewrite h1, h2, instantiate_args in h.
  congruence.
Qed.

Lemma C102_builder_pf : forall ext l i o f,
  (exists n, l = LookupById n (to_rv i) (to_rv o))
  \/ (exists s, l = LookupByName s (to_rv i) (to_rv o)) ->
  snd (signature ext l) = [ETyp f] ->
  exists c r q, add_call ext f = Built c
    /\ fst (signature ext c) = ETyp (custom_type ext CContext) :: ETyp f :: map ETyp i
    /\ snd (signature ext c) = [ETyp r]
    /\ add_read_result ext r = Built q
    /\ fst (signature ext q) = [ETyp r]
    /\ snd (signature ext q) = ETyp (custom_type ext CContext) :: map ETyp o.
Proof.
  intros ext l i o f hl hs.
  assert (e : f = custom_type ext (CFunc (to_rv i) (to_rv o)))
    by (destruct hl as [ (n & ->) | (n & ->) ]; cbn [signature snd] in hs; congruence).
  subst f. exists (Call i o), (custom_type ext (CResult (to_rv o))), (ReadResult o).
  unfold add_call, add_read_result. rewrite !custom_type_back, !of_to_rv.
  repeat split; reflexivity.
Qed.

Lemma C102_builder_refused_pf : forall ext,
  (forall i o, ~ concrete i \/ ~ concrete o ->
     add_call ext (custom_type ext (CFunc i o)) = BuildError)
  /\ (forall t, add_call ext t = Panic <-> forall i o, of_type ext t <> Some (CFunc i o)).
Proof.
  intro ext. split.
  - intros i o h. unfold add_call. rewrite custom_type_back.
    destruct (of_rv i) eqn:ei; [ | reflexivity ]. destruct (of_rv o) eqn:eo; [ | reflexivity ].
    exfalso. destruct h as [ h | h ]; apply h; apply of_rv_concrete; eauto.
  - intro t. unfold add_call. split.
    + intros h i o e. rewrite e in h. destruct (of_rv i); [ destruct (of_rv o) | ]; discriminate.
    + intro h. destruct (of_type ext t) as [ [ | | i o | ] | ]; auto. exfalso. eapply h. reflexivity.
Qed.

Lemma C102_contexts_pf : forall ext o,
  (forall r t, In r (user_rows o) -> In t r -> ~ token ext (ETyp t)) ->
  exists a b, tokens ext (fst (signature ext o)) a /\ tokens ext (snd (signature ext o)) b
    /\ a + (match o with GetContext => 1 | _ => 0 end)
       = b + (match o with DisposeContext => 1 | _ => 0 end).
Proof.
  intros ext o h. destruct o as [ | | n i o | s i o | i o | o ]; cbn [signature fst snd].
  - exists 0, 1. split; [ | split; [ | reflexivity ] ].
    + apply toks_no; [ intro t; inversion t | constructor ].
    + apply toks_yes; [ constructor | constructor ].
  - exists 1, 0. split; [ | split; [ | reflexivity ] ].
    + apply toks_yes; [ constructor | constructor ].
    + constructor.
  - exists 0, 0. split; [ | split; [ | reflexivity ] ];
      (apply toks_no; [ first [ apply token_func | apply token_module ] | constructor ]).
  - exists 0, 0. split; [ | split; [ | reflexivity ] ];
      (apply toks_no; [ first [ apply token_func | apply token_module ] | constructor ]).
  - exists 1, 1. split; [ | split; [ | reflexivity ] ].
    + apply toks_yes; [ apply token_ctx | ]. apply toks_no; [ apply token_func | ].
      apply tokens_none. intros t ht. apply (h i); [ left; reflexivity | exact ht ].
    + apply toks_yes; [ apply token_res | constructor ].
  - exists 1, 1. split; [ | split; [ | reflexivity ] ].
    + apply toks_yes; [ apply token_res | constructor ].
    + apply toks_yes; [ apply token_ctx | ].
      apply tokens_none. intros t ht. apply (h o); [ left; reflexivity | exact ht ].
Qed.

Lemma C102_unchecked_refuted_pf : forall ext args b,
  of_type ext (TCustom ext "module" args b) = Some CModule
  /\ of_type ext (TCustom ext "context" args b) = Some CContext
  /\ (args <> [] -> TCustom ext "context" args b <> custom_type ext CContext).
Proof.
  intros ext args b. unfold of_type. rewrite !String.eqb_refl. split; [ reflexivity | ].
  split; [ reflexivity | ]. intros h e. inversion e. contradiction.
Qed.

