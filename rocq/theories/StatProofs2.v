(** Proofs about static arrays of booleans: values, conversions and programs. *)
From Coq Require Import List Bool Arith Lia.
From Verif Require Import StatModel StatSpec StatProofs.
Import ListNotations.

Notation iv v := (fst (in_value v)).
Notation ov v := (fst (out_value v)).

Lemma iv_same : forall v, snd (in_value v) = false -> iv v = v.
Proof.
  induction v using val_ind2; simpl; intros E; try discriminate; try reflexivity.
  - apply orb_false_iff in E as (E1 & E2). rewrite ex_none in E1. rewrite Forall_forall in H. f_equal.
    + apply map_same. auto.
    + apply rows_same. intros row t A B. apply in_keeps, in_not. rewrite ex_none in E2. specialize (E2 row A). rewrite ex_none in E2. auto.
  - destruct (existsb _ vs); [discriminate|reflexivity].
  - destruct (in_changes e); [discriminate|reflexivity].
Qed.
Lemma iv_static : forall e vs, exists e', iv (VStatic e vs) = VStatic e' (map (fun v => iv v) vs) /\ ov (VStatic e vs) = VStatic e' (map (fun v => iv v) vs).
Proof.
  intros e vs. simpl. destruct (existsb (fun v => snd (in_value v)) vs) eqn:E; [eexists; split; reflexivity|].
  exists e. rewrite ex_none in E. rewrite (map_same (fun v => iv v)); [split; reflexivity|]. intros v J. apply iv_same. auto.
Qed.
Lemma means_in : forall v, means (iv v) = means v.
Proof.
  induction v using val_ind2.
  - reflexivity.
  - simpl. f_equal. rewrite map_map. apply map_ext_in. intros v J. rewrite Forall_forall in H. auto.
  - destruct (iv_static e vs) as (e' & -> & _). simpl. f_equal. rewrite map_map. apply map_ext_in. intros v J. rewrite Forall_forall in H. auto.
  - simpl. destruct (in_changes e); simpl; [|reflexivity]. f_equal. rewrite map_map. apply map_ext_in. intros v J. rewrite Forall_forall in H. auto.
  - reflexivity.
Qed.
Lemma means_out : forall v, means (ov v) = means v.
Proof.
  induction v using val_ind2.
  - reflexivity.
  - simpl. f_equal. rewrite map_map. apply map_ext_in. intros v J. rewrite Forall_forall in H. auto.
  - destruct (iv_static e vs) as (e' & _ & ->). simpl. f_equal. rewrite map_map. apply map_ext_in. intros v J. apply means_in.
  - simpl. destruct (out_changes e); simpl; [|reflexivity]. f_equal. rewrite map_map. apply map_ext_in. intros v J. rewrite Forall_forall in H. auto.
  - reflexivity.
Qed.

Lemma f2_map : forall {X Y} (R S : X -> Y -> Prop) (f : X -> X) (h : Y -> Y) l r,
  Forall2 R l r -> (forall x y, In x l -> In y r -> R x y -> S (f x) (h y)) -> Forall2 S (map f l) (map h r).
Proof. intros X Y R S f h l r F. induction F; simpl; intros HH; constructor; auto. Qed.
Lemma f2_in : forall {X Y} (R : X -> Y -> Prop) l r x, Forall2 R l r -> In x l -> exists y, In y r /\ R x y.
Proof. intros X Y R l r x F J. induction F; [destruct J|]. destruct J as [<-|J]; simpl; [eauto|]. destruct (IHF J) as (z & A & B). eauto. Qed.

Lemma iv_ok : forall v t, has v t -> filled v -> snd (in_value v) = in_changes t /\ has (iv v) (in_type t).
Proof.
  induction v using val_ind2; intros t T F; inversion T; subst; inversion F; subst.
  - split; [reflexivity|]. simpl. apply has_sum with (row := []); [destruct b; reflexivity|constructor].
  - rewrite Forall_forall in H. match goal with G : Forall filled vs |- _ => rewrite Forall_forall in G; rename G into FV end.
    match goal with A : nth_error rows tag = Some row, B : Forall2 has vs row |- _ => rename A into NR, B into TV end.
    pose proof (nth_error_In _ _ NR) as JR. split.
    + simpl. destruct (existsb (existsb in_changes) rows) eqn:E; [apply orb_true_r|]. rewrite orb_false_r.
      apply ex_none. intros v J. destruct (f2_in _ _ _ v TV J) as (t & A & B). rewrite (proj1 (H v J t B (FV v J))).
      rewrite ex_none in E. specialize (E row JR). rewrite ex_none in E. auto.
    + simpl. apply has_sum with (row := map in_type row); [rewrite nth_error_map, NR; reflexivity|].
      eapply f2_map; [exact TV|]. intros v t J1 J2 B. apply (H v J1 t B). auto.
  - rewrite Forall_forall in H. match goal with G : Forall filled vs |- _ => rewrite Forall_forall in G; rename G into FV end.
    match goal with A : Forall _ vs |- _ => rewrite Forall_forall in A; rename A into TV end.
    assert (E : existsb (fun v => snd (in_value v)) vs = in_changes e).
    { destruct (in_changes e) eqn:E.
      - destruct vs as [|v vs]; [exfalso; match goal with A : bool_in e -> _ |- _ => apply A; [now apply in_iff|reflexivity] end|].
        apply existsb_exists. exists v. split; [left; reflexivity|]. rewrite <- E. apply H; simpl; auto; [apply TV|apply FV]; simpl; auto.
      - apply ex_none. intros v J. rewrite <- E. apply H; auto. }
    cbn [in_value]. rewrite E. cbn [in_changes in_type]. destruct (in_changes e) eqn:C; cbn [fst snd]; (split; [reflexivity|]).
    + constructor. apply Forall_forall. intros x J. apply in_map_iff in J as (v & <- & J). apply H; auto.
    + rewrite in_keeps by (now apply in_not). constructor. now apply Forall_forall.
  - rewrite Forall_forall in H. match goal with G : Forall filled vs |- _ => rewrite Forall_forall in G; rename G into FV end.
    match goal with A : Forall _ vs |- _ => rewrite Forall_forall in A; rename A into TV end.
    simpl. destruct (in_changes e) eqn:C; cbn [fst snd]; (split; [reflexivity|]).
    + constructor. apply Forall_forall. intros x J. apply in_map_iff in J as (v & <- & J). apply H; auto.
    + rewrite in_keeps by (now apply in_not). constructor. now apply Forall_forall.
  - simpl. split; [reflexivity|constructor].
Qed.
Lemma ov_ok : forall v t, has v t -> filled v -> has (ov v) (out_type t).
Proof.
  induction v using val_ind2; intros t T F; inversion T; subst; inversion F; subst.
  - constructor.
  - rewrite Forall_forall in H. match goal with G : Forall filled vs |- _ => rewrite Forall_forall in G; rename G into FV end.
    match goal with A : nth_error rows tag = Some row, B : Forall2 has vs row |- _ => rename A into NR, B into TV end.
    simpl. apply has_sum with (row := map out_type row); [rewrite nth_error_map, NR; reflexivity|].
    eapply f2_map; [exact TV|]. intros v t J1 J2 B. apply (H v J1 t B). auto.
  - rewrite out_static. destruct (iv_ok _ _ T F) as (_ & X). destruct (iv_static e vs) as (e' & E1 & E2). rewrite E2. rewrite E1 in X. exact X.
  - rewrite Forall_forall in H. match goal with G : Forall filled vs |- _ => rewrite Forall_forall in G; rename G into FV end.
    match goal with A : Forall _ vs |- _ => rewrite Forall_forall in A; rename A into TV end.
    simpl. destruct (out_changes e) eqn:C; cbn [fst].
    + constructor. apply Forall_forall. intros x J. apply in_map_iff in J as (v & <- & J). apply H; auto.
    + rewrite out_flag by assumption. constructor. now apply Forall_forall.
  - simpl. constructor.
Qed.
(** *** Conversions *)
Lemma ty_eqb_iff : forall a b, ty_eqb a b = true <-> a = b.
Proof. intros a b. unfold ty_eqb. destruct (ty_dec a b); split; congruence. Qed.
Section CodeInd.
Variable P : code -> Prop.
Hypothesis HK : P Keep.
Hypothesis HM : P MakeOpaque.
Hypothesis HC : forall cs rows, Forall (Forall P) cs -> P (Cases cs rows).
Fixpoint code_ind2 (c : code) : P c :=
  match c with
  | Keep => HK
  | MakeOpaque => HM
  | Cases cs rows => HC cs rows ((fix go (l : list (list code)) : Forall (Forall P) l :=
      match l with [] => Forall_nil _ | x :: l => Forall_cons x ((fix go2 (l : list code) : Forall P l := match l with [] => Forall_nil P | x :: l => Forall_cons x (code_ind2 x) (go2 l) end) x) (go l) end) cs)
  end.
End CodeInd.
Lemma all_3_iff : forall {X Y Z} (f : X -> Y -> Z -> bool) l r s, all_3 f l r s = true <->
  length l = length r /\ length l = length s /\ forall i x y z, nth_error l i = Some x -> nth_error r i = Some y -> nth_error s i = Some z -> f x y z = true.
Proof.
  intros X Y Z f. induction l as [|x l IH]; intros [|y r] [|z s]; simpl; split; try discriminate; try (intros (A & B & _); discriminate).
  - intros _. repeat split; auto. intros [|i]; discriminate.
  - reflexivity.
  - intros H. apply andb_true_iff in H as (A & B). apply IH in B as (B & C & D). repeat split; auto.
    intros [|i] a b c; simpl; [|apply D]. intros E1 E2 E3. injection E1 as <-. injection E2 as <-. injection E3 as <-. exact A.
  - intros (A & B & C). apply andb_true_iff. split; [apply (C 0); reflexivity|]. apply IH. repeat split; auto. intros i. apply (C (S i)).
Qed.
Lemma code_ok_typed : forall c new old, code_ok c new old = true -> code_typed c new old.
Proof.
  induction c using code_ind2; intros new old E; simpl in E.
  - apply ty_eqb_iff in E. subst. constructor.
  - apply andb_true_iff in E as (A & B). apply ty_eqb_iff in A, B. subst. constructor.
  - destruct new as [|news| | | |]; try discriminate. destruct old as [|olds| | | |]; try discriminate.
    apply andb_true_iff in E as (A & B). apply ty_eqb_iff in A. injection A as ->.
    apply all_3_iff in B as (L1 & L2 & B). constructor; auto. intros i c n o N1 N2 N3.
    specialize (B i c n o N1 N2 N3). apply all_3_iff in B as (M1 & M2 & B). repeat split; auto.
    intros j x y z K1 K2 K3. rewrite Forall_forall in H. specialize (H c (nth_error_In _ _ N1)). rewrite Forall_forall in H.
    apply (H x (nth_error_In _ _ K1)). apply (B j); auto.
Qed.
Lemma all_some_nth : forall {X Y} (f : X -> option Y) l r, all_some f l = Some r ->
  length r = length l /\ forall i x, nth_error l i = Some x -> exists y, nth_error r i = Some y /\ f x = Some y.
Proof.
  intros X Y f. induction l as [|x l IH]; intros r E; simpl in E.
  - injection E as <-. split; [reflexivity|]. intros [|i]; discriminate.
  - destruct (f x) as [y|] eqn:F; [|discriminate]. destruct (all_some f l) as [s|] eqn:G; [|discriminate]. injection E as <-.
    destruct (IH s eq_refl) as (L & N). split; [simpl; congruence|]. intros [|i] z; simpl; [|apply N]. intros Z. injection Z as <-. eauto.
Qed.
Lemma all_some_total : forall {X Y} (f : X -> option Y) l, (forall x, In x l -> f x <> None) -> exists r, all_some f l = Some r.
Proof.
  intros X Y f. induction l as [|x l IH]; intros H; simpl; [eauto|].
  destruct (f x) as [y|] eqn:E; [|exfalso; apply (H x); simpl; auto].
  destruct IH as (r & ->); [intros z J; apply H; simpl; auto|eauto].
Qed.

Lemma convert_cases : forall tag cs rows vs rows', convert (Cases cs rows) (VSum tag vs rows') =
  match nth_error cs tag with Some c => match zip_some convert c vs with Some vs => Some (VSum tag vs rows) | None => None end | None => None end.
Proof.
  intros tag cs rows vs rows'. simpl.
  assert (G : forall cs tag, (fix nth (cs0 : list (list code)) (tag0 : nat) {struct cs0} : option (list val) :=
    match cs0 with [] => None | c0 :: cs1 => match tag0 with 0 => zip_some convert c0 vs | S tag1 => nth cs1 tag1 end end) cs tag =
    match nth_error cs tag with Some c => zip_some convert c vs | None => None end).
  { clear. induction cs as [|c cs IH]; intros [|tag]; simpl; auto. }
  rewrite G. destruct (nth_error cs tag); reflexivity.
Qed.
Lemma zip_ok : forall {X Y Z} (f : X -> Y -> option Z) l r s, length l = length r -> length l = length s ->
  (forall i x y z, nth_error l i = Some x -> nth_error r i = Some y -> nth_error s i = Some z -> f x y = Some z) -> zip_some f l r = Some s.
Proof.
  intros X Y Z f. induction l as [|x l IH]; intros [|y r] [|z s] L1 L2 H; try discriminate; simpl; [reflexivity|].
  rewrite (H 0 x y z) by reflexivity. rewrite (IH r s); auto. intros i. apply (H (S i)).
Qed.
Lemma f2_nth : forall {X Y} (R : X -> Y -> Prop) l r, Forall2 R l r -> length l = length r /\ forall i x y, nth_error l i = Some x -> nth_error r i = Some y -> R x y.
Proof.
  intros X Y R l r F. induction F as [|x y l r A F (L & IH)]; simpl; [split; [reflexivity|intros [|i]; discriminate]|].
  split; [congruence|]. intros [|i] a b; simpl; [|apply IH]. intros E1 E2. injection E1 as <-. injection E2 as <-. exact A.
Qed.
(** A conversion of the right type always works and keeps the value. *)
Lemma zip_typed : forall vs c n o, length c = length n -> length c = length o -> Forall2 has vs n ->
  (forall j x y z, nth_error c j = Some x -> nth_error n j = Some y -> nth_error o j = Some z ->
     forall w, has w y -> exists w', convert x w = Some w' /\ has w' z /\ means w' = means w) ->
  exists vs', zip_some convert c vs = Some vs' /\ Forall2 has vs' o /\ map means vs' = map means vs.
Proof.
  induction vs as [|v vs IH]; intros [|x c] [|y n] [|z o] L1 L2 F H; inversion F; subst; try discriminate; simpl.
  - exists []. repeat split; constructor.
  - destruct (H 0 x y z eq_refl eq_refl eq_refl v) as (w & E & A & B); [assumption|]. rewrite E.
    destruct (IH c n o) as (ws & E2 & A2 & B2); auto; [intros j; apply (H (S j))|]. rewrite E2. exists (w :: ws). simpl. repeat split; [constructor; assumption|congruence].
Qed.
Lemma convert_typed : forall c new old w, code_typed c new old -> has w new -> exists w', convert c w = Some w' /\ has w' old /\ means w' = means w.
Proof.
  induction c using code_ind2; intros new old w T V; inversion T; subst.
  - exists w. auto.
  - inversion V as [|tag vs rs row N F| | |]; subst. destruct tag as [|[|tag]]; simpl in N.
    + injection N as <-. inversion F; subst. exists (VBool false). repeat split; constructor.
    + injection N as <-. inversion F; subst. exists (VBool true). repeat split; constructor.
    + destruct tag; discriminate.
  - inversion V as [|tag vs rs row N F| | |]; subst. rewrite convert_cases.
    match goal with A : length cs = length news, B : length cs = length rows, D : forall i, _ |- _ => rename A into L1, B into L2, D into CT end.
    destruct (nth_error cs tag) as [c|] eqn:NC; [|apply nth_error_None in NC; assert (tag < length news) by (apply nth_error_Some; congruence); lia].
    destruct (nth_error rows tag) as [o|] eqn:NO; [|apply nth_error_None in NO; assert (tag < length news) by (apply nth_error_Some; congruence); lia].
    destruct (CT tag c row o NC N NO) as (M1 & M2 & CT2). rewrite Forall_forall in H. specialize (H c (nth_error_In _ _ NC)). rewrite Forall_forall in H.
    destruct (zip_typed vs c row o M1 M2 F) as (vs' & E & A & B).
    { intros j x y z X Y Z u U. apply (H x (nth_error_In _ _ X) y z u); eauto. }
    rewrite E. exists (VSum tag vs' rows). repeat split; [apply has_sum with (row := o); auto|simpl; congruence].
Qed.

(** The same for values that only fit their type. *)
Lemma zip_fits : forall vs c n o, length c = length n -> length c = length o -> Forall2 fits vs n ->
  (forall j x y z, nth_error c j = Some x -> nth_error n j = Some y -> nth_error o j = Some z ->
     forall w, fits w y -> exists w', convert x w = Some w' /\ fits w' z /\ means w' = means w) ->
  exists vs', zip_some convert c vs = Some vs' /\ Forall2 fits vs' o /\ map means vs' = map means vs.
Proof.
  induction vs as [|v vs IH]; intros [|x c] [|y n] [|z o] L1 L2 F H; inversion F; subst; try discriminate; simpl.
  - exists []. repeat split; constructor.
  - destruct (H 0 x y z eq_refl eq_refl eq_refl v) as (w & E & A & B); [assumption|]. rewrite E.
    destruct (IH c n o) as (ws & E2 & A2 & B2); auto; [intros j; apply (H (S j))|]. rewrite E2. exists (w :: ws). simpl. repeat split; [constructor; assumption|congruence].
Qed.
Lemma convert_fits : forall c new old w, code_typed c new old -> fits w new -> exists w', convert c w = Some w' /\ fits w' old /\ means w' = means w.
Proof.
  induction c using code_ind2; intros new old w T V; inversion T; subst.
  - exists w. auto.
  - inversion V as [|tag vs rs' rs row N F| | |]; subst. destruct tag as [|[|tag]]; simpl in N.
    + injection N as <-. inversion F; subst. exists (VBool false). repeat split; constructor.
    + injection N as <-. inversion F; subst. exists (VBool true). repeat split; constructor.
    + destruct tag; discriminate.
  - inversion V as [|tag vs rs' rs row N F| | |]; subst. rewrite convert_cases.
    match goal with A : length cs = length news, B : length cs = length rows, D : forall i, _ |- _ => rename A into L1, B into L2, D into CT end.
    destruct (nth_error cs tag) as [c|] eqn:NC; [|apply nth_error_None in NC; assert (tag < length news) by (apply nth_error_Some; congruence); lia].
    destruct (nth_error rows tag) as [o|] eqn:NO; [|apply nth_error_None in NO; assert (tag < length news) by (apply nth_error_Some; congruence); lia].
    destruct (CT tag c row o NC N NO) as (M1 & M2 & CT2). rewrite Forall_forall in H. specialize (H c (nth_error_In _ _ NC)). rewrite Forall_forall in H.
    destruct (zip_fits vs c row o M1 M2 F) as (vs' & E & A & B).
    { intros j x y z X Y Z u U. apply (H x (nth_error_In _ _ X) y z u); eauto. }
    rewrite E. exists (VSum tag vs' rows). repeat split; [apply fit_sum with (row := o); auto|simpl; congruence].
Qed.

(** Which types have one. *)
Lemma convertible_iff : forall t, (exists c, new_to_old (out_type t) = Some c /\ code_ok c (in_type t) (out_type t) = true) <-> convertible t.
Proof.
  assert (K : forall t, ty_eqb (in_type t) (out_type t) = true <-> ~ bool_out t).
  { intros t. rewrite ty_eqb_iff. split.
    - intros E. rewrite <- out_iff, <- E. apply in_none.
    - intros N. symmetry. now apply out_in. }
  induction t using ty_ind2.
  - simpl. split; [intros _; apply v_bool|]. intros _. exists MakeOpaque. split; reflexivity.
  - pose proof (rows_in _ _ H) as R. clear H. cbn [out_type new_to_old]. destruct (in_changes (TSum (map (map out_type) rows))) eqn:C.
    + assert (BO : bool_out (TSum rows)) by (apply out_iff, in_iff; exact C). split.
      * intros (c & N & O). destruct (all_some (all_some new_to_old) (map (map out_type) rows)) as [cs|] eqn:AS; [|discriminate]. injection N as <-.
        apply v_sum. intros row t A B. apply In_nth_error in A as (i & A). pose proof (nth_error_In _ _ A) as JA. apply In_nth_error in B as (j & B). pose proof (nth_error_In _ _ B) as JB. apply (R row t JA JB).
        apply all_some_nth in AS as (L & AS). destruct (AS i (map out_type row)) as (cr & NC & AR); [rewrite nth_error_map, A; reflexivity|].
        apply all_some_nth in AR as (_ & AR). destruct (AR j (out_type t)) as (c & Nc & F); [rewrite nth_error_map, B; reflexivity|].
        exists c. split; [exact F|]. cbn [code_ok in_type] in O. apply andb_true_iff in O as (_ & O). apply all_3_iff in O as (_ & _ & O).
        specialize (O i cr (map in_type row) (map out_type row) NC). rewrite !nth_error_map, A in O. specialize (O eq_refl eq_refl).
        apply all_3_iff in O as (_ & _ & O). apply (O j); auto; rewrite nth_error_map, B; reflexivity.
      * intros V. inversion V as [t N F| |rs G]; subst; [contradiction|].
        assert (RV : forall row, In row rows -> exists cr, all_some new_to_old (map out_type row) = Some cr /\ all_3 code_ok cr (map in_type row) (map out_type row) = true).
        { intros row JR. assert (X : forall t, In t row -> exists c, new_to_old (out_type t) = Some c /\ code_ok c (in_type t) (out_type t) = true) by (intros t JT; apply (R row t JR JT); eauto).
          clear - X. induction row as [|t row IH]; simpl; [exists []; auto|]. destruct (X t (or_introl eq_refl)) as (c & E & O).
          destruct IH as (cr & E2 & O2); [intros y J; apply X; simpl; auto|]. exists (c :: cr). rewrite E, E2. simpl. rewrite O. auto. }
        assert (Z : exists cs, all_some (all_some new_to_old) (map (map out_type) rows) = Some cs /\ all_3 (all_3 code_ok) cs (map (map in_type) rows) (map (map out_type) rows) = true).
        { clear - RV. induction rows as [|row rows IH]; simpl; [exists []; auto|]. destruct (RV row (or_introl eq_refl)) as (c & E & O).
          destruct IH as (cr & E2 & O2); [intros y J; apply RV; simpl; auto|]. exists (c :: cr). rewrite E, E2. simpl. rewrite O. auto. }
        destruct Z as (cs & E & O). rewrite E. exists (Cases cs (map (map out_type) rows)). split; [reflexivity|]. cbn [code_ok in_type]. rewrite O. rewrite (proj2 (ty_eqb_iff _ _) eq_refl). reflexivity.
    + assert (BO : ~ bool_out (TSum rows)) by (rewrite <- out_iff; apply in_not; exact C). split.
      * intros _. apply v_same; [exact BO|discriminate].
      * intros _. exists Keep. split; [reflexivity|]. exact (proj2 (K (TSum rows)) BO).
  - rewrite out_static. split.
    + intros _. apply v_same; [intros X; inversion X|discriminate].
    + intros _. exists Keep. split; [reflexivity|]. simpl. now apply ty_eqb_iff.
  - simpl. split.
    + intros (c & E & O). injection E as <-. apply v_same; [exact (proj1 (K (TSeq k t)) O)|discriminate].
    + intros V. inversion V; subst. exists Keep. split; [reflexivity|]. exact (proj2 (K (TSeq k t)) H).
  - simpl. split.
    + intros _. apply v_same; [intros X; inversion X|discriminate].
    + intros _. exists Keep. split; [reflexivity|]. now apply ty_eqb_iff.
  - simpl. split; [intros (c & E & _); discriminate|]. intros V. inversion V as [t N F| |]; subst. exfalso. eapply F. reflexivity.
Qed.

(** *** Programs *)
Lemma nth_f2 : forall {X Y} (R : X -> Y -> Prop) l r i y, Forall2 R l r -> nth_error r i = Some y -> exists x, nth_error l i = Some x /\ R x y.
Proof. intros X Y R l r i y F. revert i. induction F; intros [|i] N; simpl in *; try discriminate; [injection N as <-; eauto|auto]. Qed.
Lemma opt_convertible : forall t, (exists c, new_to_old (opt_t (out_type t)) = Some c /\ code_ok c (opt_t (in_type t)) (opt_t (out_type t)) = true) <-> (~ bool_out t \/ convertible t).
Proof.
  intros t. rewrite (convertible_iff (opt_t t)). split.
  - intros V. inversion V as [x N F| |rows G]; subst.
    + left. intros X. apply N. apply bo_sum with (row := [t]) (t := t); simpl; auto.
    + right. apply (G [t] t); simpl; auto.
  - intros [N|C].
    + apply v_same; [|discriminate]. intros X. inversion X as [|rows row u A B D| | |]; subst. destruct A as [<-|[<-|[]]]; [destruct B|]. destruct B as [<-|[]]. contradiction.
    + apply v_sum. intros row u [<-|[<-|[]]] B; [destruct B|]. destruct B as [<-|[]]. exact C.
Qed.
Lemma dest_spec : forall t, match get_op_dest (out_type t) with
  | DNone => ~ bool_out t
  | DConv new c => new = in_type t /\ code_typed c (opt_t (in_type t)) (opt_t (out_type t)) /\ (~ bool_out t \/ convertible t)
  | DPanic => ~ (~ bool_out t \/ convertible t)
  end.
Proof.
  intros t. unfold get_op_dest. destruct (in_changes (out_type t)) eqn:C.
  - rewrite in_out. pose proof (opt_convertible t) as K. destruct (new_to_old (opt_t (out_type t))) as [c|] eqn:N.
    + destruct (code_ok c (opt_t (in_type t)) (opt_t (out_type t))) eqn:O.
      * split; [reflexivity|]. split; [now apply code_ok_typed|apply K; eauto].
      * intros X. apply K in X as (d & E & F). injection E as <-. congruence.
    + intros X. apply K in X as (d & E & F). discriminate.
  - rewrite <- out_iff. now apply in_not.
Qed.
Lemma pass_total : forall p, Forall supported p <-> pass p <> None.
Proof.
  unfold pass. induction p as [|i p IH]; simpl; [split; [discriminate|constructor]|].
  assert (I : supported i <-> pass_instr i <> None).
  { destruct i; simpl; try (split; [discriminate|trivial]). pose proof (dest_spec t) as D. destruct (get_op_dest (out_type t)); split; intros S; try discriminate; try contradiction; try (exfalso; apply S; reflexivity).
    - left; exact D.
    - apply D. }
  split.
  - intros F. inversion F; subst. destruct (pass_instr i); [|exfalso; apply I; auto]. destruct (all_some pass_instr p); [discriminate|]. exfalso. apply IH; auto.
  - intros N. constructor.
    + apply I. intros E. rewrite E in N. contradiction.
    + apply IH. intros E. rewrite E in N. destruct (pass_instr i); contradiction.
Qed.
Lemma pass_cons : forall i p q, pass (i :: p) = Some q -> exists j r, q = j :: r /\ pass_instr i = Some j /\ pass p = Some r.
Proof. intros i p q. unfold pass. simpl. destruct (pass_instr i) as [j|]; [|discriminate]. destruct (all_some pass_instr p) as [r|]; [|discriminate]. intros E. injection E as <-. eauto. Qed.
Lemma nth_map : forall {X Y} (f : X -> Y) l i x, nth_error l i = Some x -> nth_error (map f l) i = Some (f x).
Proof. intros X Y f l i x E. rewrite nth_error_map, E. reflexivity. Qed.
Lemma pass_instr_typed : forall G i j t, typed_instr G i t -> source_instr i -> filled_instr i -> pass_instr i = Some j -> typed_instr (map out_type G) j (out_type t).
Proof.
  intros G i j t T S F P. destruct T; simpl in P, S, F; try contradiction.
  - injection P as <-. constructor. now apply ov_ok.
  - pose proof (dest_spec t) as D. pose proof (nth_map out_type _ _ _ H) as A. pose proof (nth_map out_type _ _ _ H0) as B. rewrite out_static in A. cbn [out_type] in B.
    change (out_type (opt_t t)) with (opt_t (out_type t)).
    destruct (get_op_dest (out_type t)) as [| |new c]; try discriminate; injection P as <-.
    + constructor; auto. rewrite (out_in t D). exact A.
    + destruct D as (-> & D & _). constructor; auto.
  - injection P as <-. pose proof (nth_map out_type _ _ _ H) as A. rewrite out_static in A. constructor. unfold len_op_dest.
    destruct (in_changes (out_type t)) eqn:C; [rewrite in_out; exact A|]. rewrite out_in; [exact A|]. rewrite <- out_iff. now apply in_not.
  - injection P as <-. constructor. apply (nth_map out_type _ _ _ H).
Qed.
Lemma pass_typed : forall p G G2 q, typed G p G2 -> Forall source_instr p -> Forall filled_instr p -> pass p = Some q -> typed (map out_type G) q (map out_type G2).
Proof.
  induction p as [|i p IH]; intros G G2 q T S F P.
  - injection P as <-. simpl in *. congruence.
  - apply pass_cons in P as (j & r & -> & PI & P). inversion S; inversion F; subst. destruct T as (t & TI & T). exists (out_type t). split.
    + eapply pass_instr_typed; eauto.
    + change [out_type t] with (map out_type [t]). rewrite <- map_app. eapply IH; eauto.
Qed.

(** A value is given by its type and meaning. *)
Lemma list_unique : forall l r (us : list ty), Forall (fun v => forall w t, has v t -> has w t -> means v = means w -> v = w) l ->
  Forall2 has l us -> Forall2 has r us -> map means l = map means r -> l = r.
Proof.
  intros l r us F A. revert r. induction A; intros r B E; inversion B; subst; [reflexivity|]. inversion F; subst. simpl in E. injection E as E1 E2. f_equal; eauto.
Qed.
Lemma list_unique1 : forall l r t, Forall (fun v => forall w t, has v t -> has w t -> means v = means w -> v = w) l ->
  Forall (fun v => has v t) l -> Forall (fun v => has v t) r -> map means l = map means r -> l = r.
Proof.
  intros l r t F A. revert r. induction A; intros [|y r] B E; simpl in E; try discriminate; [reflexivity|]. inversion F; inversion B; subst. injection E as E1 E2. f_equal; eauto.
Qed.
Lemma value_unique : forall v w t, has v t -> has w t -> means v = means w -> v = w.
Proof.
  induction v using val_ind2; intros w t T W E; inversion T; subst; inversion W; subst; simpl in E.
  - destruct b, b0; try reflexivity; discriminate.
  - injection E as <- E. f_equal. assert (row0 = row) by congruence. subst. eapply list_unique; eauto.
  - injection E as E. f_equal. eapply list_unique1; eauto.
  - injection E as E. f_equal. eapply list_unique1; eauto.
  - congruence.
Qed.

(** *** Values that fit *)
Lemma f2_weak : forall {X Y} (R S : X -> Y -> Prop) l r, Forall2 R l r -> Forall (fun x => forall y, R x y -> S x y) l -> Forall2 S l r.
Proof. intros X Y R S l r F. induction F; intros HH; inversion HH; subst; constructor; auto. Qed.
Lemma has_fits : forall v t, has v t -> fits v t.
Proof.
  induction v using val_ind2; intros t T; inversion T; subst; try (constructor; fail).
  - apply fit_sum with (row := row); auto. eapply f2_weak; eauto.
  - constructor. rewrite Forall_forall in *. auto.
  - constructor. rewrite Forall_forall in *. auto.
Qed.
Lemma has_all_fits : forall vs ts, Forall2 has vs ts -> Forall2 fits vs ts.
Proof. intros vs ts F. induction F; constructor; auto using has_fits. Qed.
Lemma f2_map2 : forall {X Y} (R S : X -> Y -> Prop) (f : X -> X) (h : Y -> Y) l r,
  Forall2 R l r -> Forall (fun x => forall y, R x y -> S (f x) (h y)) l -> Forall2 S (map f l) (map h r).
Proof. intros X Y R S f h l r F. induction F; simpl; intros HH; inversion HH; subst; constructor; auto. Qed.
Lemma iv_fits : forall v t, has v t -> fits (iv v) (in_type t).
Proof.
  induction v using val_ind2; intros t T; inversion T; subst.
  - simpl. apply fit_sum with (row := []); [destruct b; reflexivity|constructor].
  - simpl. apply fit_sum with (row := map in_type row); [apply nth_map; assumption|]. eapply f2_map2; eauto.
  - destruct (iv_static e vs) as (e' & -> & _). simpl. constructor. apply Forall_forall. intros x J. apply in_map_iff in J as (v & <- & J). rewrite Forall_forall in *. auto.
  - simpl. destruct (in_changes e) eqn:C; cbn [fst].
    + constructor. apply Forall_forall. intros x J. apply in_map_iff in J as (v & <- & J). rewrite Forall_forall in *. auto.
    + rewrite in_keeps by (now apply in_not). now apply has_fits.
  - simpl. constructor.
Qed.
Lemma ov_fits : forall v t, has v t -> fits (ov v) (out_type t).
Proof.
  induction v using val_ind2; intros t T; inversion T; subst.
  - constructor.
  - simpl. apply fit_sum with (row := map out_type row); [apply nth_map; assumption|]. eapply f2_map2; eauto.
  - rewrite out_static. destruct (iv_static e vs) as (e' & E1 & E2). rewrite E2, <- E1. apply iv_fits with (t := TStatic e). exact T.
  - simpl. destruct (out_changes e) eqn:C; cbn [fst].
    + constructor. apply Forall_forall. intros x J. apply in_map_iff in J as (v & <- & J). rewrite Forall_forall in *. auto.
    + rewrite out_flag by assumption. now apply has_fits.
  - simpl. constructor.
Qed.

(** *** Runs *)
Definition agree (G2 : list ty) (o o' : outcome) : Prop :=
  match o, o' with
  | Done e, Done e' => Forall2 has e G2 /\ Forall2 fits e' (map out_type G2) /\ map means e' = map means e
  | Panics, Panics => True
  | _, _ => False
  end.
Lemma means_nth : forall e e' i v, map means e' = map means e -> nth_error e i = Some v -> exists v', nth_error e' i = Some v' /\ means v' = means v.
Proof.
  intros e e' i v M N. apply (nth_map means) in N. rewrite <- M, nth_error_map in N. destruct (nth_error e' i) as [v'|]; [|discriminate]. exists v'. split; [reflexivity|]. inversion N; subst; reflexivity.
Qed.
Lemma f2_snoc : forall {X Y} (R : X -> Y -> Prop) l r x y, Forall2 R l r -> R x y -> Forall2 R (l ++ [x]) (r ++ [y]).
Proof. intros. apply Forall2_app; auto. Qed.
Lemma agree_snoc : forall G t e e' v v', Forall2 has e G -> Forall2 fits e' (map out_type G) -> map means e' = map means e ->
  has v t -> fits v' (out_type t) -> means v' = means v -> agree (G ++ [t]) (Done (e ++ [v])) (Done (e' ++ [v'])).
Proof.
  intros G t e e' v v' A B C D E F. cbn [agree]. rewrite !map_app. split; [apply f2_snoc; auto|]. split; [apply (f2_snoc fits); auto|]. cbn [map]. rewrite C, F. reflexivity.
Qed.
(** [get] on arrays with the same meaning. *)
Lemma get_pair : forall G e e' t u a x, Forall2 has e G -> Forall2 fits e' (map out_type G) -> map means e' = map means e ->
  nth_error G a = Some (TStatic t) -> nth_error G x = Some (TPlain 0) -> u = in_type t ->
  exists v w, get_elem t (nth_error e a) (nth_error e x) = Some v /\ get_elem u (nth_error e' a) (nth_error e' x) = Some w /\
    has v (opt_t t) /\ fits w (opt_t u) /\ means w = means v.
Proof.
  intros G e e' t u a x T T' M A X ->.
  destruct (nth_f2 _ _ _ _ _ T A) as (va & NA & HA). destruct (nth_f2 _ _ _ _ _ T X) as (vx & NX & HX).
  destruct (means_nth _ _ _ _ M NA) as (wa & MA & EA). destruct (means_nth _ _ _ _ M NX) as (wx & MX & EX).
  pose proof (proj2 (f2_nth _ _ _ T') a wa _ MA (nth_map out_type _ _ _ A)) as HWA. pose proof (proj2 (f2_nth _ _ _ T') x wx _ MX (nth_map out_type _ _ _ X)) as HWX.
  rewrite out_static in HWA. cbn [out_type] in HWX. inversion HA as [| |e1 vs F1| |]; inversion HX as [| | | |k1 n1]; inversion HWA as [| |e3 e2 ws F2| |]; inversion HWX as [| | | |k2 n2]; subst.
  simpl in EA, EX. injection EA as EA. injection EX as ->. rewrite NA, NX, MA, MX. cbn [get_elem].
  rewrite Forall_forall in F1, F2. destruct (nth_error vs n1) as [v|] eqn:V.
  - destruct (means_nth vs ws n1 v EA V) as (w & W & MW). rewrite W. exists (some_v t v), (some_v (in_type t) w). repeat split.
    + apply has_sum with (row := [t]); [reflexivity|]. constructor; [|constructor]. apply F1. eapply nth_error_In; eauto.
    + apply fit_sum with (row := [in_type t]); [reflexivity|]. constructor; [|constructor]. apply F2. eapply nth_error_In; eauto.
    + simpl. congruence.
  - assert (W : nth_error ws n1 = None). { apply nth_error_None. apply nth_error_None in V. rewrite <- (map_length means), EA, map_length. exact V. }
    rewrite W. exists (none_v t), (none_v (in_type t)). repeat split; [apply has_sum with (row := [])|apply fit_sum with (row := [])]; try reflexivity; constructor.
Qed.
Lemma step_agree : forall G i j t e e', typed_instr G i t -> source_instr i -> pass_instr i = Some j ->
  Forall2 has e G -> Forall2 fits e' (map out_type G) -> map means e' = map means e -> agree (G ++ [t]) (step e i) (step e' j).
Proof.
  intros G i j t e e' T S P HE HE' M. destruct T; simpl in P, S; try contradiction.
  - injection P as <-. cbn [step]. apply agree_snoc; auto; [now apply ov_fits|apply means_out].
  - pose proof (dest_spec t) as D. destruct (get_pair G e e' t (in_type t) a x HE HE' M H H0 eq_refl) as (v & w & E1 & E2 & A & B & C).
    destruct (get_op_dest (out_type t)) as [| |new c]; try discriminate; injection P as <-; cbn [step]; rewrite E1.
    + rewrite (out_in t D), E2. apply agree_snoc; auto. change (out_type (opt_t t)) with (opt_t (out_type t)). rewrite (out_in t D). exact B.
    + destruct D as (-> & D & _). rewrite E2. destruct (convert_fits _ _ _ _ D B) as (w' & -> & HW & MW). apply agree_snoc; auto. congruence.
  - injection P as <-. cbn [step]. destruct (nth_f2 _ _ _ _ _ HE H) as (va & NA & HA). destruct (means_nth _ _ _ _ M NA) as (wa & MA & EA).
    pose proof (proj2 (f2_nth _ _ _ HE') _ wa _ MA (nth_map out_type _ _ _ H)) as HWA. rewrite out_static in HWA. rewrite NA, MA.
    inversion HA; inversion HWA; subst. simpl in EA. injection EA as EA. apply agree_snoc; auto; try constructor. simpl. f_equal. rewrite <- (map_length means vs0), EA, map_length. reflexivity.
  - injection P as <-. cbn [step]. destruct (nth_f2 _ _ _ _ _ HE H) as (va & NA & HA). destruct (means_nth _ _ _ _ M NA) as (wa & MA & EA).
    pose proof (proj2 (f2_nth _ _ _ HE') _ wa _ MA (nth_map out_type _ _ _ H)) as HWA. change (out_type (opt_t t)) with (opt_t (out_type t)) in HWA. rewrite NA, MA.
    inversion HA as [|tag vs rs row N1 F1| | |]; inversion HWA as [|tag' vs' rs'' rs' row' N2 F2| | |]; subst. simpl in EA. injection EA as -> EA.
    destruct tag as [|[|tag]]; simpl in N1, N2; [| |destruct tag; discriminate]; injection N1 as <-; injection N2 as <-.
    + inversion F1; inversion F2; subst. exact I.
    + inversion F1 as [|v1 t1 l1 r1 A1 A2]; inversion F2 as [|v2 t2 l2 r2 B1 B2]; subst. inversion A2; inversion B2; subst. simpl in EA. injection EA as EA. apply agree_snoc; auto.
Qed.
Lemma run_agree : forall p G G2 q e e', typed G p G2 -> Forall source_instr p -> pass p = Some q ->
  Forall2 has e G -> Forall2 fits e' (map out_type G) -> map means e' = map means e -> agree G2 (run e p) (run e' q).
Proof.
  induction p as [|i p IH]; intros G G2 q e e' T S P HE HE' M.
  - injection P as <-. simpl in *. subst. auto.
  - apply pass_cons in P as (j & r & -> & PI & P). inversion S; subst. destruct T as (t & TI & T).
    pose proof (step_agree G i j t e e' TI H1 PI HE HE' M) as A. cbn [run].
    destruct (step e i), (step e' j); cbn [agree] in A; try contradiction; [|exact I]. destruct A as (A & B & C). eapply IH; eauto.
Qed.
(** Programs with types keep types and do not get stuck. *)
Lemma step_typed : forall G i t e, typed_instr G i t -> Forall2 has e G -> match step e i with Done e' => Forall2 has e' (G ++ [t]) | Panics => True | Stuck => False end.
Proof.
  assert (GE : forall G e t a x, Forall2 has e G -> nth_error G a = Some (TStatic t) -> nth_error G x = Some (TPlain 0) ->
    exists v, get_elem t (nth_error e a) (nth_error e x) = Some v /\ has v (opt_t t)).
  { intros G e t a x T A X. destruct (nth_f2 _ _ _ _ _ T A) as (va & NA & HA). destruct (nth_f2 _ _ _ _ _ T X) as (vx & NX & HX).
    rewrite NA, NX. inversion HA as [| |e1 vs F1| |]; inversion HX as [| | | |k1 n1]; subst. cbn [get_elem]. rewrite Forall_forall in F1. eexists. split; [reflexivity|].
    destruct (nth_error vs n1) as [v|] eqn:V.
    - apply has_sum with (row := [t]); [reflexivity|]. constructor; [|constructor]. apply F1. eapply nth_error_In; eauto.
    - apply has_sum with (row := []); [reflexivity|constructor]. }
  intros G i t e T HE. destruct T; cbn [step].
  - apply f2_snoc; auto.
  - destruct (GE G e t a x HE H H0) as (v & -> & V). apply f2_snoc; auto.
  - destruct (nth_f2 _ _ _ _ _ HE H) as (va & NA & HA). rewrite NA. inversion HA; subst. apply f2_snoc; auto. constructor.
  - destruct (nth_f2 _ _ _ _ _ HE H) as (va & NA & HA). rewrite NA. inversion HA as [|tag vs rs row N1 F1| | |]; subst.
    destruct tag as [|[|tag]]; simpl in N1; [| |destruct tag; discriminate]; injection N1 as <-.
    + inversion F1; subst. exact I.
    + inversion F1 as [|v1 t1 l1 r1 A1 A2]; subst. inversion A2; subst. apply f2_snoc; auto.
  - destruct (GE G e new a x HE H H0) as (v & -> & V). destruct (convert_typed _ _ _ _ H1 V) as (w & -> & W & _). apply f2_snoc; auto.
Qed.
Lemma run_typed : forall p G G2 e, typed G p G2 -> Forall2 has e G -> match run e p with Done e' => Forall2 has e' G2 | Panics => True | Stuck => False end.
Proof.
  induction p as [|i p IH]; intros G G2 e T HE.
  - simpl in *. subst. exact HE.
  - destruct T as (t & TI & T). pose proof (step_typed G i t e TI HE) as A. cbn [run]. destruct (step e i); try contradiction; [|exact I]. eapply IH; eauto.
Qed.

(** *** Types after the pass *)
Lemma map_f2 : forall {X Y} (R : X -> Y -> Prop) (f : X -> Y) l, Forall (fun x => R x (f x)) l -> Forall2 R l (map f l).
Proof. intros X Y R f l F. induction F; simpl; constructor; auto. Qed.
Lemma f2_fun : forall {X Y} (R : X -> Y -> Prop) (f : X -> Y) l r, Forall (fun x => forall y, R x y -> y = f x) l -> Forall2 R l r -> r = map f l.
Proof. intros X Y R f l r F A. induction A; inversion F; subst; simpl; f_equal; auto. Qed.
Lemma lowered_in : forall t, lowered true t (in_type t).
Proof.
  induction t using ty_ind2; simpl; constructor; auto; apply map_f2; auto.
  revert H. apply Forall_impl. intros row F. now apply map_f2.
Qed.
Lemma lowered_out : forall t, lowered false t (out_type t).
Proof.
  induction t using ty_ind2; try (rewrite out_static); simpl; constructor; auto; try apply lowered_in; apply map_f2; auto.
  revert H. apply Forall_impl. intros row F. now apply map_f2.
Qed.
Lemma lowered_fun : forall t b u, lowered b t u -> u = if b then in_type t else out_type t.
Proof.
  induction t using ty_ind2; intros b u L; inversion L; subst; try reflexivity.
  - destruct b; simpl; f_equal; eapply f2_fun; eauto; revert H; apply Forall_impl; intros row F r A; eapply f2_fun; eauto; revert F; apply Forall_impl; intros t F y B; apply F in B; exact B.
  - rewrite out_static. match goal with X : lowered true t _ |- _ => apply IHt in X; subst end. simpl. destruct b; reflexivity.
  - match goal with X : lowered b t _ |- _ => apply IHt in X; subst end. destruct b; reflexivity.
  - destruct b; reflexivity.
  - destruct b; simpl; f_equal; eapply f2_fun; eauto; [revert H|revert H0|revert H|revert H0]; apply Forall_impl; intros t F y B; apply F in B; exact B.
Qed.
Lemma lowered_list : forall G G', Forall2 (lowered false) G G' <-> G' = map out_type G.
Proof.
  intros G G'. split.
  - intros F. eapply f2_fun; eauto. apply Forall_forall. intros t _ y L. apply lowered_fun in L. exact L.
  - intros ->. apply map_f2. apply Forall_forall. intros t _. apply lowered_out.
Qed.
