(** Proofs about counts of registers, emitters and constants. *)
From Coq Require Import List Arith Bool Lia Permutation.
From Verif Require Import CfgModel CfgSpec CfgProofs.
Import ListNotations.

(** ** Translators which ask nothing *)
Section TyInd.
Variable P : ty -> Prop.
Hypothesis He : forall e n args, Forall P args -> P (TExt e n args).
Hypothesis Hs : forall rows, Forall (Forall P) rows -> P (TSum rows).
Hypothesis Hr : P TRow.
Hypothesis Ho : forall n, P (TOther n).
Fixpoint ty_ind' (t : ty) : P t :=
  match t with
  | TExt e n args => He e n args ((fix go l : Forall P l := match l with [] => Forall_nil P | x :: l => Forall_cons x (ty_ind' x) (go l) end) args)
  | TSum rows => Hs rows ((fix go l : Forall (Forall P) l :=
      match l with
      | [] => Forall_nil _
      | r :: l => Forall_cons r ((fix go l : Forall P l := match l with [] => Forall_nil P | x :: l => Forall_cons x (ty_ind' x) (go l) end) r) (go l)
      end) rows)
  | TRow => Hr
  | TOther n => Ho n
  end.
End TyInd.

Lemma answered_total : forall trs l e n args, Forall plain l -> exists r, answered trs l e n args r.
Proof.
  intros trs. induction l as [|tr l IH]; intros e n args F; [exists None; constructor|]. inversion F as [|? ? Pl Fl]; subst.
  destruct (IH e n args Fl) as [r A]. destruct (in_dec Nat.eq_dec e (tr_exts tr)) as [I|N]; [|exists r; now apply an_skip].
  destruct (Pl e n args) as [[c|] E]; [exists (Some c); apply an_some|exists r; apply an_none]; auto; rewrite E; constructor.
Qed.
Lemma means_total : forall trs, Forall plain trs -> forall t, exists r, means trs t r.
Proof.
  intros trs F. induction t as [e n args _|rows IH| |n] using ty_ind'.
  - destruct (Nat.eq_dec e float_ext) as [E|Nf]; [exists (Some one_param); apply m_param; auto|].
    destruct (Nat.eq_dec e rotation_ext) as [E|Nr]; [exists (Some one_param); apply m_param; auto|].
    destruct (answered_total trs trs e n args F) as [r A]. exists (no_params r). apply m_ext with r; auto. apply no_params_composite.
  - destruct (shapes rows) as [| |ts|a b rows N]; try (eexists; constructor; fail).
    + assert (R : exists r, row_means trs ts r).
      { inversion IH as [|? ? IHt _]; subst. clear IH. induction ts as [|t ts IHs]; [exists (Some zero); constructor|].
        inversion IHt as [|? ? [[c|] M] Fr]; subst; [|exists None; now apply rm_none]. destruct (IHs Fr) as [[c'|] Rm].
        - exists (Some (add c c')). now apply rm_some.
        - exists None. now apply rm_rest with c. }
      destruct R as [r Rm]. exists (no_params r). apply m_tuple with r; [exact Rm|apply no_params_composite].
    + exists None. now apply m_sum.
  - exists None. constructor.
  - exists None. constructor.
Qed.
Definition plain_call (x : call) : Prop := match x with Add tr => plain tr | Query _ => True end.
Lemma history_total : forall l trs, Forall plain trs -> Forall plain_call l -> exists rs, history trs l rs.
Proof.
  induction l as [|[tr|t] l IH]; intros trs F Fl; [exists []; constructor| |]; inversion Fl as [|? ? Pl Fl']; subst.
  - destruct (IH (trs ++ [tr])) as [rs H]; [apply Forall_app; auto|exact Fl'|]. exists rs. now constructor.
  - destruct (IH trs F Fl') as [rs H]. destruct (means_total trs F t) as [r M]. exists (nonempty r :: rs). apply hi_query with r; auto. apply nonempty_public.
Qed.

(** ** Shapes of counts *)
Lemma composite_some : forall r c, composite r (Some c) -> r = Some c /\ c_params c = 0.
Proof. intros r c C. now inversion C. Qed.
Lemma means_params : forall trs t c, means trs t (Some c) -> 0 < c_params c ->
  c = one_param /\ exists e n args, t = TExt e n args /\ (e = float_ext \/ e = rotation_ext).
Proof.
  intros trs t c M L. inversion M; subst; try (simpl in L; lia).
  - split; [reflexivity|]. eauto 6.
  - match goal with C : composite _ _ |- _ => apply composite_some in C as [_ E] end. lia.
  - match goal with C : composite _ _ |- _ => apply composite_some in C as [_ E] end. lia.
Qed.
Lemma row_app : forall trs a b x y, row_means trs a (Some x) -> row_means trs b (Some y) -> row_means trs (a ++ b) (Some (add x y)).
Proof.
  intros trs. induction a as [|t a IH]; intros b x y A B; inversion A; subst; simpl; [now rewrite add_zero_l|].
  rewrite add_assoc. apply rm_some; auto.
Qed.
Lemma tuple_inv : forall trs a x, means trs (TSum [a]) (Some x) -> row_means trs a (Some x) /\ c_params x = 0.
Proof. intros trs a x M. inversion M as [| | | |? r ? Rm C| | |]; subst. apply composite_some in C as [-> E]. auto. Qed.
Lemma tuple_intro : forall trs a x, row_means trs a (Some x) -> c_params x = 0 -> means trs (TSum [a]) (Some x).
Proof. intros trs a x Rm E. apply m_tuple with (Some x); [exact Rm|now apply co_some]. Qed.

(** ** Emitters *)
Lemma first_app : forall A B (f : A -> option B) l l', first f (l ++ l') = match first f l with Some y => Some y | None => first f l' end.
Proof. intros A B f. induction l as [|x l IH]; intros l'; simpl; [reflexivity|]. destruct (f x); [reflexivity|apply IH]. Qed.

Definition exts_of (em : emitter) : list nat := match em_exts em with Some es => es | None => [] end.
Fixpoint generals (i : nat) (l : list emitter) : list nat :=
  match l with [] => [] | em :: l => (match em_exts em with None => [i] | Some _ => [] end) ++ generals (S i) l end.
Lemma generals_app : forall l i em, generals i (l ++ [em]) = generals i l ++ (match em_exts em with None => [i + length l] | Some _ => [] end).
Proof.
  induction l as [|x l IH]; intros i em; simpl; [now rewrite app_nil_r, Nat.add_0_r|]. rewrite IH, app_assoc. now replace (S i + length l) with (i + S (length l)) by lia.
Qed.

Record config_ok (g : config) (ems : list emitter) : Prop := {
  co_ems : g_emitters g = ems;
  co_ext : forall e, lookup (g_ext g) e = numbers exts_of e 0 ems;
  co_gen : g_general g = generals 0 ems
}.
Lemma config_add : forall g ems em, config_ok g ems -> config_ok (add_emitter g em) (ems ++ [em]).
Proof.
  intros g ems em [E1 E2 E3]. unfold add_emitter. destruct (em_exts em) as [es|] eqn:Ee.
  - split; simpl; [now rewrite E1| |now rewrite generals_app, Ee, app_nil_r].
    intros e. rewrite lookup_push_all, numbers_app, E2, E1. unfold exts_of. now rewrite Ee.
  - split; simpl; [now rewrite E1| |now rewrite generals_app, Ee, E3, E1].
    intros e. rewrite numbers_app, E2. assert (exts_of em = []) as -> by (unfold exts_of; now rewrite Ee). simpl. now rewrite app_nil_r.
Qed.
Lemma configured : forall ems, config_ok (configure ems) ems.
Proof.
  assert (G : forall ems g pre, config_ok g pre -> config_ok (fold_left add_emitter ems g) (pre ++ ems)).
  { induction ems as [|em ems IH]; intros g pre O; simpl; [now rewrite app_nil_r|].
    replace (pre ++ em :: ems) with ((pre ++ [em]) ++ ems) by (now rewrite <- app_assoc). apply IH. now apply config_add. }
  intros ems. apply (G ems new_config []). split; [reflexivity|intros; reflexivity|reflexivity].
Qed.

Definition pick' (ems : list emitter) (is : list nat) : list emitter :=
  flat_map (fun i => match nth_error ems i with Some em => [em] | None => [] end) is.
Lemma pick_app : forall ems a b, pick' ems (a ++ b) = pick' ems a ++ pick' ems b.
Proof. intros. unfold pick'. now rewrite flat_map_app. Qed.

Lemma pick_at : forall pre em l, pick' (pre ++ em :: l) [length pre] = [em].
Proof. intros pre em l. unfold pick'. simpl. rewrite nth_error_app2, Nat.sub_diag by lia. reflexivity. Qed.
Lemma in_times : forall e em, specific em e <-> 0 < times e (exts_of em).
Proof.
  intros e em. rewrite <- times_in. unfold specific, exts_of. destruct (em_exts em) as [es|].
  - split; [intros (es' & E & I); injection E as <-; exact I|eauto].
  - split; [intros (es' & E & I); discriminate|intros []].
Qed.

Lemma first_repeat : forall B (f : emitter -> option B) em k rest, 0 < k ->
  first f (repeat em k ++ rest) = match f em with Some y => Some y | None => first f rest end.
Proof.
  intros B f em k rest L. induction k as [|k IH]; [lia|]. simpl. destruct (f em) eqn:E; [reflexivity|]. destruct k; [reflexivity|]. apply IH. lia.
Qed.

Lemma pick_repeat : forall pre em l k, pick' (pre ++ em :: l) (repeat (length pre) k) = repeat em k.
Proof.
  intros pre em l. induction k as [|k IH]; [reflexivity|]. change (repeat (length pre) (S k)) with ([length pre] ++ repeat (length pre) k).
  rewrite pick_app, pick_at, IH. reflexivity.
Qed.

Lemma first_numbers : forall B (f : emitter -> option B) e l pre,
  first_of (fun em => specific em e) f l (first f (pick' (pre ++ l) (numbers exts_of e (length pre) l))).
Proof.
  intros B f e. induction l as [|em l IH]; intros pre; [constructor|]. simpl numbers. rewrite pick_app, pick_repeat.
  specialize (IH (pre ++ [em])). rewrite <- app_assoc in IH. rewrite app_length, Nat.add_1_r in IH. simpl app in IH.
  destruct (times e (exts_of em)) as [|k] eqn:Et.
  - apply fo_skip; [intros Q; apply in_times in Q; lia|exact IH].
  - assert (Sp : specific em e) by (apply in_times; lia). rewrite first_repeat by lia.
    destruct (f em) as [y|] eqn:Ef; [now apply fo_some|now apply fo_none].
Qed.
Lemma first_generals : forall B (f : emitter -> option B) l pre,
  first_of general f l (first f (pick' (pre ++ l) (generals (length pre) l))).
Proof.
  intros B f. induction l as [|em l IH]; intros pre; [constructor|]. simpl generals. rewrite pick_app.
  specialize (IH (pre ++ [em])). rewrite <- app_assoc in IH. rewrite app_length, Nat.add_1_r in IH. simpl app in IH.
  destruct (em_exts em) as [es|] eqn:Ee.
  - apply fo_skip; [unfold general; rewrite Ee; discriminate|exact IH].
  - rewrite pick_at. simpl first. destruct (f em) as [y|] eqn:Ef; [now apply fo_some|now apply fo_none].
Qed.

Lemma first_of_fun : forall A B (P : A -> Prop) (f : A -> option B) l r, first_of P f l r -> forall r', first_of P f l r' -> r = r'.
Proof. intros A B P f l r H. induction H; intros r' Q; inversion Q; subst; try contradiction; try congruence; auto. Qed.

(** Constants: the emitters in order. *)
Lemma first_filter : forall B (f : emitter -> option B) (p : nat -> bool) (P : emitter -> Prop) l pre,
  (forall i em, nth_error l i = Some em -> (p (length pre + i) = true <-> P em)) ->
  first_of P f l (first f (pick' (pre ++ l) (filter p (seq (length pre) (length l))))).
Proof.
  intros B f p P. induction l as [|em l IH]; intros pre K; [constructor|]. simpl.
  assert (IH' := IH (pre ++ [em])). rewrite <- app_assoc in IH'. rewrite app_length, Nat.add_1_r in IH'. simpl app in IH'.
  assert (K0 := K 0 em eq_refl). rewrite Nat.add_0_r in K0.
  assert (R : first_of P f l (first f (pick' (pre ++ em :: l) (filter p (seq (S (length pre)) (length l)))))).
  { apply IH'. intros i em' E. rewrite <- (K (S i) em' E). now replace (S (length pre) + i) with (length pre + S i) by lia. }
  destruct (p (length pre)) eqn:Ep.
  - change (length pre :: filter p (seq (S (length pre)) (length l))) with ([length pre] ++ filter p (seq (S (length pre)) (length l))).
    rewrite pick_app, pick_at. simpl first. assert (Pe : P em) by (now apply K0).
    destruct (f em) as [y|] eqn:Ef; [now apply fo_some|now apply fo_none].
  - apply fo_skip; [|exact R]. intros Pe. apply K0 in Pe. discriminate.
Qed.

Lemma numbers_in : forall e l i j, In j (numbers exts_of e i l) <-> exists em, i <= j /\ nth_error l (j - i) = Some em /\ specific em e.
Proof.
  intros e. induction l as [|em l IH]; intros i j; simpl.
  - split; [intros []|intros (em & _ & E & _); destruct (j - i); discriminate].
  - rewrite in_app_iff, IH. split.
    + intros [I|(em' & L & E & Sp)].
      * assert (j = i) as -> by (now apply repeat_spec in I). exists em. rewrite Nat.sub_diag. repeat split; [lia|]. apply in_times.
        destruct (times e (exts_of em)); [destruct I|lia].
      * exists em'. split; [lia|]. replace (j - i) with (S (j - S i)) by lia. auto.
    + intros (em' & L & E & Sp). destruct (Nat.eq_dec j i) as [->|N].
      * left. rewrite Nat.sub_diag in E. injection E as <-. apply in_times in Sp. destruct (times e (exts_of em)); [lia|]. now left.
      * right. exists em'. replace (j - i) with (S (j - S i)) in E by lia. simpl in E. repeat split; [lia|exact E|exact Sp].
Qed.
Lemma generals_in : forall l i j, In j (generals i l) <-> exists em, i <= j /\ nth_error l (j - i) = Some em /\ general em.
Proof.
  induction l as [|em l IH]; intros i j; simpl.
  - split; [intros []|intros (em & _ & E & _); destruct (j - i); discriminate].
  - rewrite in_app_iff, IH. split.
    + intros [I|(em' & L & E & Sp)].
      * destruct (em_exts em) eqn:Ee; [destruct I|]. destruct I as [<-|[]]. exists em. rewrite Nat.sub_diag. auto.
      * exists em'. split; [lia|]. replace (j - i) with (S (j - S i)) by lia. auto.
    + intros (em' & L & E & Sp). destruct (Nat.eq_dec j i) as [->|N].
      * left. rewrite Nat.sub_diag in E. injection E as <-. unfold general in Sp. rewrite Sp. now left.
      * right. exists em'. replace (j - i) with (S (j - S i)) in E by lia. simpl in E. repeat split; [lia|exact E|exact Sp].
Qed.

Lemma used_mentions : forall t e, In e (used t) <-> mentions t e.
Proof.
  induction t as [e n args IH|rows IH| |n] using ty_ind'; intros e'; simpl.
  - rewrite Forall_forall in IH. split.
    + intros [<-|I]; [constructor|]. apply in_flat_map in I as (t & I & U). apply me_arg with t; [exact I|now apply IH].
    + intros M. inversion M as [|? ? ? t ? I M'|]; subst; [now left|]. right. apply in_flat_map. exists t. split; [exact I|now apply IH].
  - rewrite Forall_forall in IH. split.
    + intros I. apply in_flat_map in I as (row & I & U). apply in_flat_map in U as (t & It & U). apply me_row with row t; auto.
      specialize (IH row I). rewrite Forall_forall in IH. now apply IH.
    + intros M. inversion M as [| |? row t ? I It M']; subst. apply in_flat_map. exists row. split; [exact I|]. apply in_flat_map. exists t. split; [exact It|].
      specialize (IH row I). rewrite Forall_forall in IH. now apply IH.
  - split; [intros []|intros M; inversion M].
  - split; [intros []|intros M; inversion M].
Qed.

Lemma const_first : forall B (f : emitter -> option B) ems t,
  first_of (fun em => general em \/ exists e, mentions t e /\ specific em e) f ems (first f (for_extensions (configure ems) (used t))).
Proof.
  intros B f ems t. destruct (configured ems) as [E1 E2 E3]. unfold for_extensions, pick. rewrite E1.
  apply (first_filter B f _ _ ems []). intros i em Ei. simpl length. rewrite Nat.add_0_l. rewrite existsb_exists. rewrite E3. split.
  - intros (j & I & Ej). apply Nat.eqb_eq in Ej. subst j. apply in_app_iff in I as [I|I].
    + right. apply in_flat_map in I as (e & U & I). exists e. split; [now apply used_mentions|]. rewrite E2 in I.
      apply numbers_in in I as (em' & _ & E & Sp). rewrite Nat.sub_0_r, Ei in E. injection E as <-. exact Sp.
    + left. apply generals_in in I as (em' & _ & E & Sp). rewrite Nat.sub_0_r, Ei in E. injection E as <-. exact Sp.
  - intros D. exists i. split; [|apply Nat.eqb_refl]. apply in_app_iff. destruct D as [G|(e & M & Sp)].
    + right. apply generals_in. exists em. rewrite Nat.sub_0_r. repeat split; [lia|exact Ei|exact G].
    + left. apply in_flat_map. exists e. split; [now apply used_mentions|]. rewrite E2. apply numbers_in. exists em. rewrite Nat.sub_0_r. repeat split; [lia|exact Ei|exact Sp].
Qed.
Lemma const_encoded : forall ems e n args p l, encoded_as ems e n args p l ->
  first (fun em => em_const em e n args p) (for_extensions (configure ems) (used (TExt e n args))) = Some l.
Proof. intros ems e n args p l E. symmetry. exact (first_of_fun _ _ _ _ _ _ E _ (const_first _ _ ems (TExt e n args))). Qed.
