(** Proofs about compute operations and functions in packages. *)
From Coq Require Import String List Arith Bool Lia.
From Verif Require Import CompModel CompSpec.
Import ListNotations.
Local Open Scope string_scope.
Local Open Scope list_scope.

Lemma of_to_rv : forall r, of_rv (to_rv r) = Some r.
Proof.
  unfold to_rv. induction r as [ | t r IH ]; cbn [map of_rv]; auto. rewrite IH. reflexivity.
Qed.

Lemma to_of_rv : forall r r', of_rv r = Some r' -> to_rv r' = r.
Proof.
  unfold to_rv. induction r as [ | [ t | i ] r IH ]; intros r' h; cbn [of_rv] in h.
  - inversion h. reflexivity.
  - destruct (of_rv r) as [ q | ]; [ | discriminate ]. inversion h; subst. cbn [map].
    f_equal. apply IH. reflexivity.
  - discriminate.
Qed.

Lemma of_rv_concrete : forall r, concrete r <-> exists r', of_rv r = Some r'.
Proof.
  intro r. split.
  - induction r as [ | [ t | i ] r IH ]; intro h; cbn [of_rv]; eauto.
    + destruct IH as (r' & ->); [ intros e he; apply h; right; exact he | eauto ].
    + destruct (h (EVar i) (or_introl eq_refl)) as (t & e). discriminate.
  - intros (r' & h). apply to_of_rv in h. subst. intros e he. unfold to_rv in he.
    apply in_map_iff in he. destruct he as (t & <- & _). eauto.
Qed.

Lemma custom_type_back : forall ext c, of_type ext (custom_type ext c) = Some c.
Proof.
  intros ext c. destruct c; simpl; rewrite String.eqb_refl; reflexivity.
Qed.

Lemma of_type_ext : forall ext ext' c, ext <> ext' -> of_type ext' (custom_type ext c) = None.
Proof.
  intros ext ext' c h. apply String.eqb_neq in h. destruct c; simpl; rewrite h; reflexivity.
Qed.

Lemma instantiate_args : forall o, instantiate (compute_op_def o) (type_args o) = Some o.
Proof.
  destruct o; simpl; rewrite ?of_to_rv; reflexivity.
Qed.

Lemma instantiate_takes : forall d args, takes d args <->
  exists o, instantiate d args = Some o /\ compute_op_def o = d /\ type_args o = args.
Proof.
  intros d args. split.
  - intro h. destruct h as [ | | n i o | s i o | i o hi ho | o ho ]; simpl;
      try (eexists; split; [ reflexivity | split; reflexivity ]).
    + apply of_rv_concrete in hi. apply of_rv_concrete in ho.
      destruct hi as (i' & ei). destruct ho as (o' & eo). rewrite ei, eo.
      eexists. split; [ reflexivity | ]. split; [ reflexivity | ].
      simpl. rewrite (to_of_rv _ _ ei), (to_of_rv _ _ eo). reflexivity.
    + apply of_rv_concrete in ho. destruct ho as (o' & eo). rewrite eo.
      eexists. split; [ reflexivity | ]. split; [ reflexivity | ].
      simpl. rewrite (to_of_rv _ _ eo). reflexivity.
  - intros (o & _ & <- & <-). destruct o; simpl; constructor; apply of_rv_concrete;
      eexists; apply of_to_rv.
Qed.

Lemma instantiate_only : forall d args o, instantiate d args = Some o -> takes d args.
Proof.
  intros d args o h. apply instantiate_takes. exists o. split; [ exact h | ].
  destruct d; destruct args as [ | a [ | b [ | c [ | x l ] ] ] ]; simpl in h;
    try discriminate;
    repeat match goal with
           | h : context [ match ?a with ANat _ => _ | AStr _ => _ | ARow _ => _ end ] |- _ =>
               destruct a; try discriminate; simpl in h
           | h : context [ match arg_to_row ?a with Some _ => _ | None => _ end ] |- _ =>
               destruct a; simpl in h; try discriminate
           | h : context [ match of_rv ?a with Some _ => _ | None => _ end ] |- _ =>
               let e := fresh "e" in destruct (of_rv a) eqn:e; try discriminate
           end;
    inversion h; subst; simpl; split; auto;
    repeat match goal with e : of_rv _ = Some _ |- _ => apply to_of_rv in e; subst end; reflexivity.
Qed.

(** ** Tokens *)
Lemma token_ctx : forall ext, token ext (ETyp (custom_type ext CContext)).
Proof. intro. constructor. Qed.
Lemma token_res : forall ext o, token ext (ETyp (custom_type ext (CResult o))).
Proof. intros. constructor. Qed.
Lemma token_func : forall ext i o, ~ token ext (ETyp (custom_type ext (CFunc i o))).
Proof. intros ext i o h. inversion h. Qed.
Lemma token_module : forall ext, ~ token ext (ETyp (custom_type ext CModule)).
Proof. intros ext h. inversion h. Qed.

Lemma tokens_none : forall ext r, (forall t, In t r -> ~ token ext (ETyp t)) -> tokens ext (to_rv r) 0.
Proof.
  unfold to_rv. induction r as [ | t r IH ]; intro h; cbn [map]; [ constructor | ].
  apply toks_no; [ apply h; left; reflexivity | ]. apply IH. intros x hx. apply h. right. exact hx.
Qed.

(** ** Functions in packages *)
Lemma find_first : forall name m n p, name <> "" ->
  (find (fun c => String.eqb (func_name (snd c)) name) (m_children m) = Some (n, MDefn name p)
   <-> first_def m name n p).
Proof.
  intros name m n p hne. unfold first_def. induction (m_children m) as [ | c l IH ]; cbn [find].
  - split; [ discriminate | ]. intros (a & b & e & _). destruct a; discriminate.
  - destruct (String.eqb_spec (func_name (snd c)) name) as [ e | e ].
    + destruct c as [ k [ f q | ] ]; simpl in e; [ subst f | congruence ]. split.
      * intro h. inversion h; subst. exists [], l. split; [ reflexivity | ]. intros ? ? [].
      * intros (a & b & e & ha). destruct a as [ | x a ]; simpl in e; inversion e; subst; auto.
        exfalso. exact (ha k q (or_introl eq_refl)).
    + rewrite IH. split.
      * intros (a & b & -> & ha). exists (c :: a), b. split; [ reflexivity | ].
        intros k q [ -> | h ]; [ apply e; reflexivity | exact (ha k q h) ].
      * intros (a & b & e' & ha). destruct a as [ | x a ]; simpl in e'; inversion e'; subst.
        { exfalso. apply e. reflexivity. }
        exists a, b. split; [ reflexivity | ]. intros k q h. apply (ha k q). right. exact h.
Qed.

Lemma find_none_defines : forall name m, name <> "" ->
  (find (fun c => String.eqb (func_name (snd c)) name) (m_children m) = None <-> ~ defines m name).
Proof.
  intros name m hne. unfold defines. split.
  - intros h (n & p & hi). pose proof (find_none _ _ h _ hi) as x. simpl in x.
    rewrite String.eqb_refl in x. discriminate.
  - intro h. destruct (find _ _) as [ [ n c ] | ] eqn:e; auto. exfalso. apply h.
    apply find_some in e. destruct e as (hi & e). apply String.eqb_eq in e. simpl in e.
    destruct c as [ f p | ]; simpl in e; [ subst f; eauto | congruence ].
Qed.

Lemma find_some_defn : forall name m c, name <> "" ->
  find (fun c => String.eqb (func_name (snd c)) name) (m_children m) = Some c ->
  exists n p, c = (n, MDefn name p).
Proof.
  intros name m c hne h. apply find_some in h. destruct h as (_ & e). apply String.eqb_eq in e.
  destruct c as [ n [ f p | ] ]; simpl in e; [ subst; eauto | congruence ].
Qed.

(** What the search gives, for one module. *)
Lemma find_function_cases : forall m name, name <> "" -> m_is_module m = true ->
  (~ defines m name /\ exists l, find_function m name = LErr (FunctionNotFound l))
  \/ (exists n, first_def m name n 0 /\ find_function m name = LOk n)
  \/ (exists n p, first_def m name n (S p) /\ find_function m name = LErr (Parametric n)).
Proof.
  intros m name hne hm. unfold find_function. rewrite hm. simpl.
  destruct (find _ _) as [ c | ] eqn:e.
  - right. destruct (find_some_defn _ _ _ hne e) as (n & p & ->).
    apply (find_first _ _ _ _ hne) in e. destruct p as [ | p ].
    + left. exists n. auto.
    + right. exists n, p. auto.
  - left. apply (find_none_defines _ _ hne) in e. split; eauto.
Qed.

Lemma first_in_here : forall m ms name n p,
  m_is_module m = true -> first_def m name n p -> first_in (m :: ms) name 0 n p.
Proof.
  intros m ms name n p h1 h2. exists [], m, ms. repeat split; auto; try contradiction.
Qed.

Lemma first_in_next : forall m ms name i n p,
  m_is_module m = true -> ~ defines m name ->
  (first_in (m :: ms) name (S i) n p <-> first_in ms name i n p).
Proof.
  intros m ms name i n p h1 h2. split.
  - intros (b & x & a & e & hl & hb & hx & hf). destruct b as [ | y b ]; simpl in hl; [ lia | ].
    simpl in e. inversion e; subst. exists b, x, a. repeat split; auto;
      try (apply hb; right; assumption). 
  - intros (b & x & a & e & hl & hb & hx & hf). exists (m :: b), x, a. subst.
    split; [ reflexivity | ]. split; [ reflexivity | ]. split; [ | auto ].
    intros y [ <- | hy ]; auto.
Qed.

Lemma first_in_zero : forall m ms name n p, first_in (m :: ms) name 0 n p ->
  m_is_module m = true /\ first_def m name n p.
Proof.
  intros m ms name n p (b & x & a & e & hl & hb & hx & hf).
  destruct b; [ | discriminate ]. inversion e; subst. auto.
Qed.

Lemma first_def_defines : forall m name n p, first_def m name n p -> defines m name.
Proof.
  intros m name n p (a & b & e & _). exists n, p. rewrite e. apply in_or_app. right. left. reflexivity.
Qed.

Lemma find_from_ok : forall name, name <> "" -> forall ms j avail i n,
  find_from j avail ms name = LOk (i, n) <-> exists k, i = j + k /\ first_in ms name k n 0.
Proof.
  intros name hne. induction ms as [ | m ms IH ]; intros j avail i n; cbn [find_from].
  - split; [ discriminate | ]. intros (k & _ & b & x & a & e & _). destruct b; discriminate.
  - destruct (m_is_module m) eqn:hm.
    + destruct (find_function_cases m name hne hm)
        as [ (hd & l & e) | [ (n0 & hf & e) | (n0 & p0 & hf & e) ] ]; rewrite e.
      * rewrite IH. split.
        { intros (k & -> & h). exists (S k). split; [ lia | ]. apply first_in_next; auto. }
        { intros ([ | k ] & -> & h).
          - apply first_in_zero in h. destruct h as (_ & h). apply first_def_defines in h. contradiction.
          - exists k. split; [ lia | ]. apply first_in_next in h; auto. }
      * split.
        { intro h. inversion h; subst. exists 0. split; [ lia | ]. apply first_in_here; auto. }
        { intros ([ | k ] & -> & h).
          - apply first_in_zero in h. destruct h as (_ & h).
            apply (find_first _ _ _ _ hne) in h. apply (find_first _ _ _ _ hne) in hf.
            rewrite h in hf. inversion hf. rewrite Nat.add_0_r. reflexivity.
          - exfalso. destruct h as (b & x & a & eb & hl & hb & _). destruct b as [ | y b ]; [ discriminate | ].
            inversion eb; subst. destruct (hb y (or_introl eq_refl)) as (_ & hn).
            apply hn. eapply first_def_defines. exact hf. }
      * split; [ discriminate | ]. intros ([ | k ] & -> & h).
        { apply first_in_zero in h. destruct h as (_ & h).
          apply (find_first _ _ _ _ hne) in h. apply (find_first _ _ _ _ hne) in hf.
          rewrite h in hf. inversion hf. }
        { exfalso. destruct h as (b & x & a & eb & hl & hb & _). destruct b as [ | y b ]; [ discriminate | ].
          inversion eb; subst. destruct (hb y (or_introl eq_refl)) as (_ & hn).
          apply hn. eapply first_def_defines. exact hf. }
    + assert (e : find_function m name = LErr NonModuleRoot) by (unfold find_function; rewrite hm; reflexivity).
      rewrite e. split; [ discriminate | ]. intros ([ | k ] & -> & h).
      * apply first_in_zero in h. destruct h. congruence.
      * destruct h as (b & x & a & eb & hl & hb & _). destruct b as [ | y b ]; [ discriminate | ].
        inversion eb; subst. destruct (hb y (or_introl eq_refl)). congruence.
Qed.

Lemma find_from_not_found : forall name, name <> "" -> forall ms j avail,
  (forall m, In m ms -> m_is_module m = true) ->
  ((exists l, find_from j avail ms name = LErr (FunctionNotFound l))
   <-> forall m, In m ms -> ~ defines m name).
Proof.
  intros name hne. induction ms as [ | m ms IH ]; intros j avail hm; cbn [find_from].
  - split; [ intros _ m [] | eauto ].
  - destruct (find_function_cases m name hne (hm m (or_introl eq_refl)))
      as [ (hd & l & e) | [ (n0 & hf & e) | (n0 & p0 & hf & e) ] ]; rewrite e.
    + rewrite IH by (intros x hx; apply hm; right; exact hx). split.
      * intros h x [ <- | hx ]; auto.
      * intros h x hx. apply h. right. exact hx.
    + split; [ intros (l & h); discriminate | ]. intro h. exfalso.
      apply (h m (or_introl eq_refl)). eapply first_def_defines. exact hf.
    + split; [ intros (l & h); discriminate | ]. intro h. exfalso.
      apply (h m (or_introl eq_refl)). eapply first_def_defines. exact hf.
Qed.

(** The names that are listed. *)
Lemma find_from_listed : forall name ms j avail l, 
  find_from j avail ms name = LErr (FunctionNotFound l) ->
  l = avail ++ flat_map (fun m => map (fun c => func_name (snd c)) (m_children m)) ms.
Proof.
  intro name. induction ms as [ | m ms IH ]; intros j avail l h; cbn [find_from flat_map] in *.
  - inversion h. rewrite app_nil_r. reflexivity.
  - unfold find_function in h. destruct (m_is_module m); simpl in h; [ | discriminate ].
    destruct (find _ _) as [ [ n [ f [ | p ] | ] ] | ]; simpl in h; try discriminate.
    rewrite (IH _ _ _ h). rewrite app_assoc. reflexivity.
Qed.
