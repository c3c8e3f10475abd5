(** Repacking other wires, and the runtime barrier. *)

From Coq Require Import List Arith Bool Lia.
From Verif Require Import UnpackModel UnpackSpec UnpackProofs.
Import ListNotations.

Section Elem.
Variable elem : ty.

Definition typed (row : list ty) (ws : list wire) : Prop :=
  map fst ws = row /\ Forall (fun w => fits (fst w) (snd w)) ws.

Definition agree (ws0 ws : list wire) : Prop :=
  Forall2 (fun w0 w => fst w0 = fst w /\ (fst w <> elem -> snd w0 = snd w)) ws0 ws.

Definition back (t : ty) (ws : list wire) : Prop :=
  exists v, repack elem t ws = Ok (t, v) /\ fits t v /\ full elem t v /\
            unpack elem t v = Ok ws /\
            (forall v0 ws0, fits t v0 -> full elem t v0 -> unpack elem t v0 = Ok ws0 ->
                            agree ws0 ws -> frame elem t v0 v).

Lemma firstn_wires n : forall ws : list wire, map fst (firstn n ws) = firstn n (map fst ws).
Proof. induction n; intros [|w ws]; simpl; auto. rewrite IHn. auto. Qed.
Lemma skipn_wires n : forall ws : list wire, map fst (skipn n ws) = skipn n (map fst ws).
Proof. induction n; intros [|w ws]; simpl; auto. Qed.

Lemma typed_app r1 r2 ws : typed (r1 ++ r2) ws ->
  exists a b, ws = a ++ b /\ typed r1 a /\ typed r2 b.
Proof.
  intros [M F]. exists (firstn (length r1) ws), (skipn (length r1) ws).
  rewrite firstn_skipn. split; auto.
  rewrite <- (firstn_skipn (length r1) ws) in F. apply Forall_app in F as [F1 F2].
  split; split; auto.
  - rewrite firstn_wires, M, firstn_app, Nat.sub_diag, firstn_all. simpl. apply app_nil_r.
  - rewrite skipn_wires, M, skipn_app, Nat.sub_diag, skipn_all. auto.
Qed.

Lemma typed_length r ws : typed r ws -> length ws = length r.
Proof. intros [M _]. rewrite <- M, map_length. auto. Qed.

Lemma typed_len_fst r (ws : list wire) : map fst ws = r -> length ws = length r.
Proof. intros <-. rewrite map_length. auto. Qed.

Lemma agree_app a b c d : length a = length c -> agree (a ++ b) (c ++ d) -> agree a c /\ agree b d.
Proof.
  revert c. induction a as [|x a IH]; intros [|y c] L H; simpl in *; try lia.
  - split; auto. constructor.
  - inversion H; subst. apply IH in H5 as [X Y]; [|lia]. split; auto. constructor; auto.
Qed.

Lemma good_unpack_len t v ws : simple elem t -> fits t v -> full elem t v ->
  unpack elem t v = Ok ws -> map fst ws = urow elem t.
Proof.
  intros S F L U. destruct (roundtrip elem t v S F L) as (ws' & U' & M & _). congruence.
Qed.

Lemma back_row : forall ts ws,
  Forall (simple elem) ts ->
  (forall t w, In t ts -> typed (urow elem t) w -> back t w) ->
  typed (flat_map (urow elem) ts) ws ->
  exists vs, length ts = length vs /\ repack_row elem ts ws = Ok (combine ts vs) /\
             fits_row ts vs /\ full_row elem ts vs /\ unpack_row elem ts vs = Ok ws /\
             (forall vs0 ws0, fits_row ts vs0 -> full_row elem ts vs0 ->
                unpack_row elem ts vs0 = Ok ws0 -> agree ws0 ws -> frame_row elem ts vs0 vs).
Proof.
  induction ts as [|t ts IH]; intros ws S B T; simpl in T.
  - destruct T as [T _]. apply map_eq_nil in T. subst. exists []. repeat split; auto; try constructor.
    intros vs0 ws0 F. inversion F. constructor.
  - inversion S as [|? ? St Ss]; subst.
    apply typed_app in T as (a & b & -> & Ta & Tb).
    destruct (B t a) as (v & R & F & L & U & Fr); [left; auto|auto|].
    destruct (IH b) as (vs & Len & R' & F' & L' & U' & Fr'); auto.
    { intros; apply B; auto; right; auto. }
    exists (v :: vs). simpl.
    assert (La : num_unpacked_wires elem t = length a).
    { rewrite num_urow. symmetry. apply typed_length; auto. }
    rewrite La, firstn_app, firstn_all, Nat.sub_diag, skipn_app, skipn_all, Nat.sub_diag.
    simpl. rewrite app_nil_r, R. simpl. rewrite R'. simpl. rewrite U. simpl. rewrite U'. simpl.
    repeat split; auto; try constructor; auto.
    intros vs0 ws0 F0 L0 U0 A0. inversion F0; subst. inversion L0; subst.
    simpl in U0. destruct (unpack elem t v0) as [a0| | |] eqn:Ua; simpl in U0; try discriminate.
    destruct (unpack_row elem ts vs1) as [b0| | |] eqn:Ub; simpl in U0; try discriminate.
    injection U0 as <-.
    assert (length a0 = length a).
    { transitivity (length (urow elem t)); [|symmetry; apply typed_length; auto].
      apply typed_len_fst. eapply good_unpack_len; eauto. }
    apply agree_app in A0 as [A1 A2]; auto. constructor; eauto.
Qed.

Lemma back_self ws : typed [elem] ws -> back elem ws.
Proof.
  intros [M F]. destruct ws as [|[t v] [|]]; try discriminate. simpl in M. injection M as ->.
  inversion F; subst. simpl in *. exists v. rewrite repack_self, unpack_self. simpl.
  repeat split; auto; constructor.
Qed.

Lemma back_leaf t ws : ~ holds elem t -> t <> Opt Qb -> t <> Opt elem -> typed [t] ws -> back t ws.
Proof.
  intros H O O' [M F]. destruct ws as [|[t' v] [|]]; try discriminate. simpl in M. injection M as ->.
  inversion F; subst. simpl in *. exists v.
  rewrite repack_none, unpack_none by (auto using not_holds_row). simpl.
  repeat split; auto; try (apply full_none; auto).
  intros v0 ws0 F0 L0 U A. rewrite unpack_none in U by (auto using not_holds_row).
  injection U as <-. inversion A; subst. simpl in *. destruct H5 as [_ E].
  rewrite E; [apply fr_none; auto|]. intros ->. apply H. constructor.
Qed.

Lemma in_repeat_combine' t n vs :
  length vs = n -> fits_row (repeat t n) vs -> Forall (fits t) vs.
Proof.
  intros <-. induction vs; simpl; intros H; constructor; inversion H; subst; auto.
Qed.

Lemma full_row_repeat t n vs :
  length vs = n -> full_row elem (repeat t n) vs -> full_cells elem t (map Some vs).
Proof.
  intros <-. induction vs; simpl; intros H; constructor; inversion H; subst; auto.
Qed.

Lemma fits_cells_of k t vs : Forall (fits t) vs -> fits_cells k t (map Some vs).
Proof. induction 1; simpl; constructor; auto. Qed.

Lemma fits_row_of t vs : Forall (fits t) vs -> fits_row (repeat t (length vs)) vs.
Proof. induction 1; simpl; constructor; auto. Qed.

Lemma full_row_of t vs : Forall (full elem t) vs -> full_row elem (repeat t (length vs)) vs.
Proof. induction 1; simpl; constructor; auto. Qed.

Lemma unpack_opts vs : elem = Qb ->
  unpack_row elem (map (fun _ => Opt elem) (map VSome vs)) (map VSome vs) = Ok (map (fun v => (elem, v)) vs).
Proof.
  intros EQ. induction vs; [auto|]. cbn [map unpack_row]. rewrite IHvs.
  assert (X : unpack elem (Opt elem) (VSome a) = Ok [(elem, a)]).
  { cbn [unpack]. pose proof (opt_not_self elem) as N. apply ty_eqb_neq in N. rewrite N.
    cbn [is_opt_of]. rewrite EQ at 1. rewrite ty_eqb_refl. unfold unpack_option. rewrite ty_eqb_refl. auto. }
  rewrite X. auto.
Qed.

Lemma num_opt : num_unpacked_wires elem (Opt elem) = 1.
Proof. unfold num_unpacked_wires. rewrite unpack_type_leaf; auto. apply opt_not_self. Qed.

Lemma repack_opts vs :
  repack_row elem (repeat (Opt elem) (length vs)) (map (fun v => (elem, v)) vs) =
  Ok (map (fun v => (Opt elem, VSome v)) vs).
Proof.
  induction vs; [auto|]. cbn [length repeat map repack_row].
  rewrite num_opt. cbn [firstn skipn]. rewrite IHvs.
  assert (X : repack elem (Opt elem) (@cons wire (elem, a) (@nil wire)) = Ok (Opt elem, VSome a)).
  { cbn [repack]. pose proof (opt_not_self elem) as N. apply ty_eqb_neq in N. rewrite N.
    cbn [is_opt_of]. rewrite ty_eqb_refl. cbn [first_wire bind]. unfold repack_option. cbn [fst snd].
    rewrite ty_eqb_refl. auto. }
  rewrite X. auto.
Qed.

Lemma typed_repeat n ws : typed (repeat elem n) ws ->
  exists vs, ws = map (fun v => (elem, v)) vs /\ length vs = n /\ Forall (fits elem) vs.
Proof.
  revert ws. induction n; intros [|[t v] ws] [M F]; simpl in *; try discriminate.
  - exists []. auto.
  - injection M as -> M. inversion F; subst. destruct (IHn ws) as (vs & -> & L & Fv); [split; auto|].
    exists (v :: vs). simpl in *. auto.
Qed.

Lemma full_opts_inv k n v : Arr k n (Opt elem) <> elem -> full elem (Arr k n (Opt elem)) v ->
  exists vs, v = VArr (map (fun v => Some (VSome v)) vs).
Proof.
  intros E L.
  assert (exists l, v = VArr l /\ Forall (fun o => exists v, o = Some (VSome v)) l) as (l & -> & Fo).
  { inversion L; subst; try congruence; eauto. exfalso. apply H. constructor. }
  assert (exists vs, l = map (fun v => Some (VSome v)) vs) as (vs & ->); eauto.
  clear - Fo. induction Fo as [|o l [v ->] _ [vs ->]]; [exists []|exists (v :: vs)]; auto.
Qed.

Lemma full_arr_inv k n t v : Arr k n t <> elem -> t <> Opt elem -> holds elem t -> full elem (Arr k n t) v ->
  exists vs, v = VArr (map Some vs) /\ Forall (full elem t) vs.
Proof.
  intros E O H L.
  assert (exists l, v = VArr l /\ full_cells elem t l) as (l & -> & Fo).
  { inversion L; subst; try congruence; eauto. exfalso. apply H0. apply holds_arr; auto. }
  apply full_cells_some in Fo as (vs & -> & Fv). eauto.
Qed.

Lemma repack_unpack : forall t ws, simple elem t -> typed (urow elem t) ws -> back t ws.
Proof.
  induction t using ty_ind'; intros ws S T;
    match goal with |- back ?T _ => destruct (ty_dec T elem) as [E|E] end;
    try (rewrite E in *; unfold urow in T; rewrite unpack_type_self in T; apply back_self; auto).
  - assert (~ holds elem Qb) by (intros X; inversion X; congruence).
    rewrite urow_none in T by auto. apply back_leaf; auto; congruence.
  - assert (~ holds elem (Base k)) by (intros X; inversion X; congruence).
    rewrite urow_none in T by auto. apply back_leaf; auto; congruence.
  - destruct (holds_dec elem (Tup l)) as [Hh|Hh].
    2: { rewrite urow_none in T by auto. apply back_leaf; auto; congruence. }
    assert (Ss : Forall (simple elem) l) by (inversion S; auto; try congruence; contradiction).
    rewrite urow_tup in T by auto.
    destruct (back_row l ws Ss) as (vs & Len & R & F & L & U & Fr); auto.
    { intros t w I Tw. rewrite Forall_forall in H, Ss. auto. }
    exists (VTup vs). rewrite (unpack_tup_eq elem _ _ (urow elem (Tup l))), (repack_tup_eq elem _ _ (urow elem (Tup l)))
      by (auto using holds_row).
    unfold check_row. rewrite urow_tup by auto. destruct T as [T1 T2]. rewrite T1, row_eqb_refl. cbn [bind].
    rewrite R. cbn [bind]. rewrite combine_fst, combine_snd, row_eqb_refl by auto.
    rewrite U. cbn [bind]. rewrite T1, row_eqb_refl.
    split; [auto|]. split; [constructor; auto|]. split; [apply full_tup; auto|]. split; [auto|].
    intros v0 ws0 F0 L0 U0 A0.
    assert (exists vs0, v0 = VTup vs0 /\ full_row elem l vs0) as (vs0 & -> & L1).
    { inversion L0; subst; try congruence; try contradiction; eauto. }
    assert (fits_row l vs0) by (inversion F0; auto).
    rewrite (unpack_tup_eq elem _ _ (urow elem (Tup l))) in U0 by (auto using holds_row).
    destruct (unpack_row elem l vs0) as [x| | |] eqn:X; simpl in U0; try discriminate.
    unfold check_row in U0. destruct (row_eqb (map fst x) (urow elem (Tup l))); try discriminate.
    injection U0 as ->. constructor. eauto.
  - apply simple_opt in S as [S|[S1 S2]]; [congruence|].
    assert (~ holds elem (Opt t)) by (intros X; inversion X; congruence).
    rewrite urow_none in T by auto. apply back_leaf; auto; congruence.
  - destruct (holds_dec elem (Arr k n t)) as [Hh|Hh].
    2: { rewrite urow_none in T by auto. apply back_leaf; auto; congruence. }
    destruct (ty_dec t (Opt elem)) as [O|O].
    + subst t.
      assert (elem = Qb) as EQ.
      { inversion S; try congruence; try contradiction.
        match goal with H : simple elem (Opt elem) |- _ => apply simple_opt in H as [X|[_ X]] end;
          [exfalso; apply (opt_not_self elem); auto|congruence]. }
      rewrite urow_opts in T by auto.
      destruct (typed_repeat _ _ T) as (vs & -> & Ln & Fv). destruct T as [T _].
      exists (VArr (map Some (map VSome vs))).
      rewrite (unpack_arr_eq elem _ _ _ _ (urow elem (Arr k n (Opt elem)))), (repack_arr_eq elem _ _ _ _ (urow elem (Arr k n (Opt elem))))
        by (auto using holds_row; try (rewrite num_opt; lia); try (rewrite urow_opts, repeat_length by auto; rewrite num_opt; lia)).
      rewrite array_elems_some. cbn [bind]. rewrite urow_opts by auto.
      rewrite unpack_opts by auto. cbn [bind]. unfold check_row. rewrite T, row_eqb_refl. cbn [bind].
      rewrite <- Ln, repack_opts. cbn [bind].
      rewrite !map_map. cbn [fst snd]. rewrite map_const_repeat, row_eqb_refl.
      split; [auto|]. split; [|split; [|split]]; auto.
      * constructor; [apply map_length|]. rewrite <- (map_map VSome Some). apply fits_cells_of.
        apply Forall_map. eapply Forall_impl; [|exact Fv]. intros a Fa. constructor. auto.
      * apply full_opts. apply Forall_map. apply Forall_forall. eauto.
      * intros v0 ws0 F0 L0 U0 A0.
        rewrite Ln in *. apply full_opts_inv in L0 as (vs0 & ->); auto.
        constructor. assert (length vs0 = n); [|congruence].
        inversion F0. rewrite map_length in *. auto.
    + assert (holds elem t /\ simple elem t /\ exists c, wires_of elem t c /\ c <> 0) as (Ht & St & c & Wc & Nc).
      { inversion S; subst; try congruence; try contradiction; eauto 6. }
      apply wires_unique in Wc.
      rewrite urow_arr in T by auto.
      destruct (back_row (repeat t n) ws) as (vs & Len & R & F & L & U & Fr); auto.
      { apply Forall_forall. intros x X. apply repeat_spec in X. subst. auto. }
      { intros t' w I Tw. apply repeat_spec in I. subst. auto. }
      rewrite repeat_length in Len.
      exists (VArr (map Some vs)).
      rewrite (unpack_arr_eq elem _ _ _ _ (urow elem (Arr k n t))), (repack_arr_eq elem _ _ _ _ (urow elem (Arr k n t)))
        by (auto using holds_row; rewrite ?num_urow; try (rewrite urow_arr, length_flat_repeat by auto); congruence).
      destruct T as [T1 T2].
      rewrite array_elems_some. cbn [bind]. rewrite map_const_repeat, <- Len, U. cbn [bind]. unfold check_row.
      rewrite urow_arr, T1, row_eqb_refl by auto. cbn [bind]. rewrite R. cbn [bind].
      rewrite combine_fst, row_eqb_refl by (rewrite repeat_length; auto).
      rewrite <- (map_map snd Some), combine_snd by (rewrite repeat_length; auto).
      split; [auto|]. split; [|split; [|split]]; auto.
      * constructor; [rewrite map_length; auto|]. apply fits_cells_of. apply in_repeat_combine' with (n := n); auto.
      * apply full_arr; auto. apply full_row_repeat with (n := n); auto.
      * intros v0 ws0 F0 L0 U0 A0.
        apply full_arr_inv in L0 as (vs0 & -> & L0); auto.
        rewrite (unpack_arr_eq elem _ _ _ _ (urow elem (Arr k n t))) in U0 by (auto using holds_row).
        rewrite array_elems_some in U0. cbn [bind] in U0.
        assert (Ln0 : length vs0 = n /\ Forall (fits t) vs0).
        { inversion F0. rewrite map_length in *. split; auto. eapply fits_cells_some; eauto. }
        destruct Ln0 as [Ln0 Fv0].
        destruct (unpack_row elem (map (fun _ => t) vs0) vs0) as [x| | |] eqn:X; simpl in U0; try discriminate.
        unfold check_row in U0. destruct (row_eqb (map fst x) (urow elem (Arr k n t))); try discriminate.
        injection U0 as ->. apply fr_arr. rewrite map_const_repeat in *. rewrite Ln0 in *.
        apply (Fr vs0 ws0); auto; rewrite <- Ln0; [apply fits_row_of|apply full_row_of]; auto.
Qed.
End Elem.

(** * Elements are determined *)

Scheme elements_mut := Induction for elements Sort Prop
with elements_row_mut := Induction for elements_row Sort Prop.

Lemma map_some_inj {A} (a b : list A) : map Some a = map Some b -> a = b.
Proof. revert b. induction a; intros [|] H; simpl in *; try discriminate; auto. injection H as -> H. f_equal; auto. Qed.

Lemma map_vsome_inj (a b : list value) :
  map (fun v => Some (VSome v)) a = map (fun v => Some (VSome v)) b -> a = b.
Proof. revert b. induction a; intros [|] H; simpl in *; try discriminate; auto. injection H as -> H. f_equal; auto. Qed.

Lemma elements_det elem : forall t v a, elements elem t v a -> forall b, elements elem t v b -> a = b.
Proof.
  apply (elements_mut elem (fun t v a _ => forall b, elements elem t v b -> a = b)
           (fun ts vs a _ => forall b, elements_row elem ts vs b -> a = b)).
  - intros v b H. inversion H; subst; try congruence. exfalso. match goal with H : ~ holds _ _ |- _ => apply H end. constructor.
  - intros t v N b H. inversion H; subst; try congruence; exfalso; apply N; try constructor; auto.
  - intros ts vs es N Hh R IH b H. inversion H; subst; try congruence; try contradiction. auto.
  - intros k n l vs N -> b H. inversion H; subst; try congruence.
    + exfalso. apply H0. constructor.
    + apply map_vsome_inj; auto.
  - intros k n t l vs es N O Hh -> R IH b H. inversion H; subst; try congruence.
    + exfalso. apply H0. apply holds_arr; auto.
    + match goal with H : map Some _ = map Some _ |- _ => apply map_some_inj in H end. subst. auto.
  - intros b H. inversion H. auto.
  - intros t ts v vs a b Ha IHa Hb IHb c H. inversion H; subst. f_equal; auto.
Qed.

Lemma elements_row_det elem : forall ts vs a, elements_row elem ts vs a -> forall b, elements_row elem ts vs b -> a = b.
Proof.
  induction 1; intros c H'; inversion H'; subst; auto. f_equal; auto.
  eapply elements_det; eauto.
Qed.

(** * The runtime barrier *)

Section Barrier.
Variable barrier : list value -> list value.
Hypothesis returns : returns_qubits barrier.

Lemma replace_qubits_ok : forall ws outs,
  length outs = length (elems Qb ws) -> Forall (fits Qb) outs ->
  Forall (fun w => fits (fst w) (snd w)) ws ->
  exists ws', replace_qubits ws outs = Some ws' /\ typed (map fst ws) ws' /\
              agree Qb ws ws' /\ elems Qb ws' = outs.
Proof.
  induction ws as [|[t v] ws IH]; intros outs L Fo Fw.
  - destruct outs; [|discriminate]. exists []. repeat split; auto; constructor.
  - inversion Fw; subst. unfold elems in L. cbn [filter fst] in L.
    cbn [replace_qubits]. unfold is_qubit_wire. cbn [fst].
    destruct (ty_eqb t Qb) eqn:E.
    + apply ty_eqb_eq in E. subst. destruct outs as [|o outs]; [discriminate|].
      inversion Fo; subst. simpl in L. injection L as L.
      destruct (IH outs) as (ws' & R & [T1 T2] & A & El); auto.
      exists ((Qb, o) :: ws'). rewrite R. simpl. split; auto. split; [split; simpl; [congruence|constructor; auto]|].
      split; [constructor; auto; simpl; split; auto; congruence|].
      unfold elems in *. simpl. congruence.
    + destruct (IH outs) as (ws' & R & [T1 T2] & A & El); auto.
      exists ((t, v) :: ws'). rewrite R. simpl. split; auto. split; [split; simpl; [congruence|constructor; auto]|].
      split; [constructor; auto|].
      unfold elems in *. simpl. rewrite E. auto.
Qed.

(** Wires that come out of a typed value are typed. *)
Lemma unpack_fits elem : forall t v, simple elem t -> fits t v -> full elem t v -> forall ws,
  unpack elem t v = Ok ws -> Forall (fun w => fits (fst w) (snd w)) ws.
Proof.
  assert (Row : forall ts vs, (forall t v ws, In (t, v) (combine ts vs) -> unpack elem t v = Ok ws ->
                   Forall (fun w : wire => fits (fst w) (snd w)) ws) ->
                 forall ws, unpack_row elem ts vs = Ok ws -> Forall (fun w : wire => fits (fst w) (snd w)) ws).
  { induction ts as [|t ts IH]; intros [|v vs] H ws U; simpl in U; try (injection U as <-; constructor).
    destruct (unpack elem t v) as [a| | |] eqn:Ua; simpl in U; try discriminate.
    destruct (unpack_row elem ts vs) as [b| | |] eqn:Ub; simpl in U; try discriminate.
    injection U as <-. apply Forall_app. split; eauto.
    - eapply H; eauto. left; auto.
    - eapply IH; eauto. intros. eapply H; eauto. right; auto. }
  induction t using ty_ind'; intros v S F L ws U;
    match goal with H : unpack _ ?T _ = _ |- _ =>
      destruct (ty_dec T elem) as [E|E];
      [ rewrite E, unpack_self in H; injection H as <-; constructor; auto; simpl; rewrite <- E; auto |]
    end.
  1,2: rewrite unpack_none in U; [injection U as <-; constructor; auto
       |apply not_holds_row; intros X; inversion X; congruence|congruence].
  - destruct (holds_dec elem (Tup l)) as [Hh|Hh].
    2: { rewrite unpack_none in U; [injection U as <-; constructor; auto|apply not_holds_row; auto|congruence]. }
    assert (Ss : Forall (simple elem) l) by (inversion S; auto; try congruence; contradiction).
    assert (exists vs, v = VTup vs /\ full_row elem l vs) as (vs & -> & FL).
    { inversion L; subst; try congruence; try contradiction; eauto. }
    assert (FR : fits_row l vs) by (inversion F; auto).
    rewrite (unpack_tup_eq elem _ _ (urow elem (Tup l))) in U by (auto using holds_row).
    destruct (unpack_row elem l vs) as [x| | |] eqn:X; simpl in U; try discriminate.
    unfold check_row in U. destruct (row_eqb (map fst x) (urow elem (Tup l))); try discriminate.
    injection U as ->. eapply Row; [|exact X].
    intros t v w I Uw. destruct (fits_row_combine _ _ FR) as [_ FC].
    rewrite Forall_forall in H, Ss. assert (In t l) by (apply in_combine_l in I; auto).
    eapply H; eauto. eapply full_row_combine; eauto.
  - apply simple_opt in S as [S|[S1 S2]]; [congruence|].
    rewrite unpack_none in U; [injection U as <-; constructor; auto
      |apply not_holds_row; intros X; inversion X; congruence|congruence].
  - destruct (holds_dec elem (Arr k n t)) as [Hh|Hh].
    2: { rewrite unpack_none in U; [injection U as <-; constructor; auto|apply not_holds_row; auto|congruence]. }
    rewrite (unpack_arr_eq elem _ _ _ _ (urow elem (Arr k n t))) in U by (auto using holds_row).
    destruct (ty_dec t (Opt elem)) as [O|O].
    + subst t. assert (elem = Qb) as EQ.
      { inversion S; try congruence; try contradiction.
        match goal with H : simple elem (Opt elem) |- _ => apply simple_opt in H as [X|[_ X]] end;
          [exfalso; apply (opt_not_self elem); auto|congruence]. }
      apply full_opts_inv in L as (vs & ->); auto.
      rewrite <- (map_map VSome Some) in U. rewrite array_elems_some in U. cbn [bind] in U.
      rewrite unpack_opts in U by auto. cbn [bind] in U. unfold check_row in U.
      destruct (row_eqb _ _); try discriminate. injection U as <-.
      rewrite <- (map_map VSome Some) in F.
      assert (FC : Forall (fits (Opt elem)) (map VSome vs)).
      { inversion F. eapply fits_cells_some; eauto. }
      clear - FC. induction vs; simpl in *; constructor; inversion FC; subst; auto.
      simpl. inversion H1; auto.
    + assert (holds elem t /\ simple elem t) as (Ht & St).
      { inversion S; subst; try congruence; try contradiction; eauto 6. }
      apply full_arr_inv in L as (vs & -> & L); auto.
      rewrite array_elems_some in U. cbn [bind] in U.
      assert (Fv : Forall (fits t) vs) by (inversion F; eapply fits_cells_some; eauto).
      destruct (unpack_row elem (map (fun _ => t) vs) vs) as [x| | |] eqn:X; simpl in U; try discriminate.
      unfold check_row in U. destruct (row_eqb (map fst x) _); try discriminate.
      injection U as ->. eapply Row; [|exact X].
      intros t' v w I Uw. rewrite map_const_repeat in I. apply in_repeat_combine in I as [-> I].
      rewrite Forall_forall in Fv, L. eapply IHt; eauto.
Qed.

Lemma good_row_all elem ts vs : Forall (simple elem) ts -> fits_row ts vs -> full_row elem ts vs ->
  exists ws, unpack_row elem ts vs = Ok ws /\ map fst ws = flat_map (urow elem) ts /\
             elements_row elem ts vs (elems elem ws) /\ repack_row elem ts ws = Ok (combine ts vs) /\
             Forall (fun w => fits (fst w) (snd w)) ws.
Proof.
  intros S F L. destruct (fits_row_combine _ _ F) as [Len FC].
  assert (G : forall t v, In (t, v) (combine ts vs) -> simple elem t /\ fits t v /\ full elem t v).
  { intros t v I. rewrite Forall_forall in S. split; [apply S; eapply in_combine_l; eauto|].
    split; auto. eapply full_row_combine; eauto. }
  destruct (good_row elem ts vs Len) as (ws & U & M & E & R).
  { intros t v I. apply G in I as (A & B & C). apply roundtrip; auto. }
  exists ws. repeat split; auto.
  clear M E R S F L Len FC. revert vs ws U G. induction ts as [|t ts IH]; intros [|v vs] ws U G; simpl in U;
    try (injection U as <-; constructor).
  destruct (unpack elem t v) as [a| | |] eqn:Ua; simpl in U; try discriminate.
  destruct (unpack_row elem ts vs) as [b| | |] eqn:Ub; simpl in U; try discriminate.
  injection U as <-. apply Forall_app. split.
  - destruct (G t v) as (A & B & C); [left; auto|]. eapply unpack_fits; eauto.
  - eapply IH; eauto. intros. apply G. right; auto.
Qed.

Lemma elems_fits elem ws : Forall (fun w : wire => fits (fst w) (snd w)) ws -> Forall (fits elem) (elems elem ws).
Proof.
  unfold elems. induction 1 as [|[t v] ws F _ IH]; simpl; [constructor|].
  destruct (ty_eqb t elem) eqn:E; auto. apply ty_eqb_eq in E. subst. constructor; auto.
Qed.

Lemma packing_ok ts vs qs :
  Forall (simple Qb) ts -> fits_row ts vs -> full_row Qb ts vs -> elements_row Qb ts vs qs ->
  exists vs', packing barrier ts vs = Ok vs' /\ fits_row ts vs' /\
              elements_row Qb ts vs' (barrier qs) /\ frame_row Qb ts vs vs'.
Proof.
  intros S F L E.
  destruct (good_row_all Qb ts vs S F L) as (ws & U & M & El & R & Fw).
  assert (qs = elems Qb ws) by (eapply elements_row_det; eauto). subst qs.
  destruct (returns (elems Qb ws)) as [Fo Lo]; [apply elems_fits; auto|].
  destruct (replace_qubits_ok ws (barrier (elems Qb ws))) as (ws' & Rq & T & A & El'); auto.
  unfold packing. rewrite U. cbn [bind].
  change (map snd (filter is_qubit_wire ws)) with (elems Qb ws). rewrite Rq.
  rewrite M in T.
  destruct (back_row Qb ts ws') as (vs' & Len & R' & F' & L' & U' & Fr); auto.
  { intros t w I Tw. apply repack_unpack; auto. rewrite Forall_forall in S. auto. }
  rewrite R'. cbn [bind]. rewrite combine_fst, combine_snd, row_eqb_refl by auto.
  exists vs'. repeat split; auto.
  - destruct (good_row_all Qb ts vs' S F' L') as (ws'' & U'' & _ & El'' & _).
    assert (ws'' = ws') by congruence. subst. rewrite <- El'. auto.
  - eapply Fr; eauto.
Qed.

(** ** The row of the barrier node *)

Lemma containers_spec ts vs :
  map fst (qubit_containers ts vs) = map fst (filter (fun p => contains_element_type Qb (fst p)) (combine ts vs)).
Proof. auto. Qed.

Lemma containers_cons t ts v vs :
  qubit_containers (t :: ts) (v :: vs) =
  if contains_element_type Qb t then (t, v) :: qubit_containers ts vs else qubit_containers ts vs.
Proof. unfold qubit_containers. simpl. destruct (contains_element_type Qb t); auto. Qed.

Lemma containers_rows : forall ts vs,
  (forall t, In t ts -> holds Qb t -> simple Qb t) ->
  fits_row ts vs ->
  (forall t v, In (t, v) (combine ts vs) -> holds Qb t -> full Qb t v) ->
  forall qs, elements_row Qb ts vs qs ->
  let ps := qubit_containers ts vs in
  Forall (simple Qb) (map fst ps) /\ fits_row (map fst ps) (map snd ps) /\
  full_row Qb (map fst ps) (map snd ps) /\ elements_row Qb (map fst ps) (map snd ps) qs.
Proof.
  induction ts as [|t ts IH]; intros vs S F L qs E; inversion F; subst; inversion E; subst.
  - simpl. repeat split; constructor.
  - rewrite containers_cons. simpl. destruct (IH vs0) with (qs := b) as (A & B & C & D); auto.
    { intros; apply S; auto; right; auto. }
    { intros; apply L; auto; right; auto. }
    destruct (contains_element_type Qb t) eqn:X.
    + apply contains_holds in X. simpl. repeat split; constructor; auto.
      * apply S; auto. left; auto.
      * apply L; auto. left; auto.
    + assert (a = []) as ->.
      { assert (N : ~ holds Qb t) by (rewrite <- contains_holds; congruence).
        eapply elements_det; eauto. apply el_none. auto. }
      auto.
Qed.

Lemma put_back_ok : forall ts vs,
  fits_row ts vs ->
  let ps := qubit_containers ts vs in
  forall outs es, fits_row (map fst ps) outs -> elements_row Qb (map fst ps) outs es ->
    frame_row Qb (map fst ps) (map snd ps) outs ->
    fits_row ts (put_back ts vs outs) /\ elements_row Qb ts (put_back ts vs outs) es /\
    frame_row Qb ts vs (put_back ts vs outs).
Proof.
  induction ts as [|t ts IH]; intros vs F; inversion F; subst.
  - simpl. intros outs es Fo Eo Fr. inversion Eo. repeat split; constructor.
  - rewrite containers_cons. simpl. destruct (contains_element_type Qb t) eqn:X; simpl; intros outs es Fo Eo Fr.
    + inversion Fo; subst. inversion Eo; subst. inversion Fr; subst.
      destruct (IH vs0) with (outs := vs) (es := b) as (A & B & C); auto.
      repeat split; constructor; auto.
    + assert (N : ~ holds Qb t) by (rewrite <- contains_holds; congruence).
      destruct (IH vs0) with (outs := outs) (es := es) as (A & B & C); auto.
      repeat split; try constructor; auto.
      * change es with ([] ++ es). constructor; auto. apply el_none; auto.
      * apply fr_none; auto.
Qed.

Lemma qubit_elements_row vs : elements_row Qb (map (fun _ => Qb) vs) vs vs.
Proof.
  induction vs; simpl; [constructor|]. change (a :: vs) with ([a] ++ vs) at 2. constructor; auto. constructor.
Qed.

Lemma qubit_frame_row vs vs' : length vs = length vs' -> frame_row Qb (map (fun _ => Qb) vs) vs vs'.
Proof.
  revert vs'. induction vs; intros [|] L; simpl in *; try discriminate; constructor; auto. constructor.
Qed.

Lemma array_barrier_ok n v qs :
  fits (Arr AStd n Qb) v -> full Qb (Arr AStd n Qb) v -> elements Qb (Arr AStd n Qb) v qs ->
  exists v', array_barrier barrier v = Ok v' /\ fits (Arr AStd n Qb) v' /\
             elements Qb (Arr AStd n Qb) v' (barrier qs) /\ frame Qb (Arr AStd n Qb) v v'.
Proof.
  intros F L E.
  assert (NE : Arr AStd n Qb <> Qb) by congruence. assert (NO : Qb <> Opt Qb) by congruence.
  destruct (full_arr_inv Qb _ _ _ _ NE NO (holds_self Qb) L) as (vs & -> & _).
  assert (E' : elements Qb (Arr AStd n Qb) (VArr (map Some vs)) vs).
  { eapply el_arr; eauto. constructor. apply qubit_elements_row. }
  assert (qs = vs) by (eapply elements_det; eauto). subst qs.
  assert (Fv : Forall (fits Qb) vs) by (inversion F; eapply fits_cells_some; eauto).
  assert (Ln : length vs = n) by (inversion F; rewrite map_length in *; auto).
  destruct (returns vs Fv) as [Fb Lb].
  exists (VArr (map Some (barrier vs))). unfold array_barrier. rewrite array_elems_some. cbn [bind].
  repeat split; auto.
  - constructor; [rewrite map_length; congruence|]. apply fits_cells_of; auto.
  - eapply el_arr; eauto. constructor. apply qubit_elements_row.
  - apply fr_arr. apply qubit_frame_row. auto.
Qed.

Lemma put_back_none : forall ts vs, fits_row ts vs -> qubit_containers ts vs = [] ->
  forall o, put_back ts vs o = vs.
Proof.
  induction 1; intros H' o; simpl; auto.
  rewrite containers_cons in H'. destruct (contains_element_type Qb t); [discriminate|]. rewrite IHfits_row; auto.
Qed.

Lemma insert_ok ts vs qs :
  (forall t, In t ts -> holds Qb t -> simple Qb t) ->
  fits_row ts vs ->
  (forall t v, In (t, v) (combine ts vs) -> holds Qb t -> full Qb t v) ->
  elements_row Qb ts vs qs ->
  exists vs', insert_runtime_barrier barrier ts vs = Ok vs' /\ fits_row ts vs' /\
              elements_row Qb ts vs' (barrier qs) /\ frame_row Qb ts vs vs'.
Proof.
  intros S F L E.
  destruct (containers_rows ts vs S F L qs E) as (Sp & Fp & Lp & Ep).
  pose proof (put_back_ok ts vs F) as PB. cbv zeta in PB.
  assert (G : forall outs, fits_row (map fst (qubit_containers ts vs)) outs ->
    elements_row Qb (map fst (qubit_containers ts vs)) outs (barrier qs) ->
    frame_row Qb (map fst (qubit_containers ts vs)) (map snd (qubit_containers ts vs)) outs ->
    exists vs', Ok (put_back ts vs outs) = Ok vs' /\ fits_row ts vs' /\
              elements_row Qb ts vs' (barrier qs) /\ frame_row Qb ts vs vs').
  { intros outs A B C. eexists. split; [reflexivity|]. eapply PB; eauto. }
  unfold insert_runtime_barrier.
  destruct (qubit_containers ts vs) as [|[t v] [|p ps]] eqn:Q.
  - inversion Ep; subst. destruct (returns []) as [_ Z]; [constructor|]. destruct (barrier []) eqn:B0; [|discriminate].
    destruct (G []) as (vs' & O & X); try constructor.
    exists vs'. rewrite (put_back_none ts vs F Q) in O. auto.
  - destruct (is_qubit_array t) eqn:A.
    + destruct t as [| | | |[| |] n t]; try discriminate. simpl in A. apply ty_eqb_eq in A. subst t.
      simpl in Fp, Lp, Ep. inversion Fp; subst. inversion Lp; subst. inversion Ep; subst.
      match goal with H : elements_row Qb [] [] _ |- _ => inversion H; subst end.
      rewrite app_nil_r in *.
      destruct (array_barrier_ok n v a) as (v' & B & F1 & E1 & Fr1); auto.
      rewrite B. cbn [bind]. apply G; simpl.
      * repeat constructor; auto.
      * rewrite <- (app_nil_r (barrier a)). repeat constructor; auto.
      * repeat constructor; auto.
    + destruct (packing_ok [t] [v] qs) as (vs' & P & F1 & E1 & Fr1); auto.
      rewrite P. cbn [bind]. apply G; auto.
  - destruct (packing_ok _ _ qs Sp Fp Lp Ep) as (vs' & P & F1 & E1 & Fr1).
    rewrite P. cbn [bind]. apply G; auto.
Qed.
End Barrier.

(** A barrier that returns the qubits it is given changes nothing. *)
Section Transparent.
Variable barrier : list value -> list value.
Hypothesis same : forall qs, Forall (fits Qb) qs -> barrier qs = qs.

Lemma replace_qubits_id : forall ws, replace_qubits ws (elems Qb ws) = Some ws.
Proof.
  unfold elems. induction ws as [|[t v] ws IH]; simpl; auto.
  unfold is_qubit_wire. simpl. destruct (ty_eqb t Qb) eqn:E; simpl; rewrite IH; simpl; auto.
  apply ty_eqb_eq in E. subst. auto.
Qed.

Lemma packing_id ts vs :
  Forall (simple Qb) ts -> fits_row ts vs -> full_row Qb ts vs -> packing barrier ts vs = Ok vs.
Proof.
  intros S F L. destruct (good_row_all Qb ts vs S F L) as (ws & U & M & El & R & Fw).
  unfold packing. rewrite U. cbn [bind].
  change (map snd (filter is_qubit_wire ws)) with (elems Qb ws).
  rewrite same, replace_qubits_id, R by (apply elems_fits; auto). cbn [bind].
  destruct (fits_row_combine _ _ F) as [Len _].
  rewrite combine_fst, combine_snd, row_eqb_refl by auto. auto.
Qed.

Lemma put_back_id : forall ts vs, fits_row ts vs ->
  put_back ts vs (map snd (qubit_containers ts vs)) = vs.
Proof.
  induction 1; simpl; auto. rewrite containers_cons.
  destruct (contains_element_type Qb t); simpl; rewrite IHfits_row; auto.
Qed.

Lemma insert_id ts vs :
  (forall t, In t ts -> holds Qb t -> simple Qb t) ->
  fits_row ts vs ->
  (forall t v, In (t, v) (combine ts vs) -> holds Qb t -> full Qb t v) ->
  insert_runtime_barrier barrier ts vs = Ok vs.
Proof.
  intros S F L.
  assert (exists qs, elements_row Qb ts vs qs) as (qs & E).
  { clear - S F L. induction F as [|t ts v vs F Fr IH]; [eexists; constructor|].
    destruct IH as (b & Hb).
    - intros; apply S; auto; right; auto.
    - intros; apply L; auto; right; auto.
    - destruct (holds_dec Qb t) as [Hh|Hh].
      + destruct (roundtrip Qb t v) as (ws & _ & _ & El & _); auto.
        * apply S; auto; left; auto.
        * apply L; auto; left; auto.
        * eexists. constructor; eauto.
      + eexists. constructor; eauto. apply el_none; auto. }
  destruct (containers_rows ts vs S F L qs E) as (Sp & Fp & Lp & Ep).
  pose proof (put_back_id ts vs F) as PB.
  unfold insert_runtime_barrier.
  destruct (qubit_containers ts vs) as [|[t v] [|p ps]] eqn:Q; auto.
  - destruct (is_qubit_array t) eqn:A.
    + destruct t as [| | | |[| |] n t]; try discriminate. simpl in A. apply ty_eqb_eq in A. subst t.
      simpl in Fp, Lp. inversion Fp; subst. inversion Lp; subst.
      assert (NE : Arr AStd n Qb <> Qb) by congruence. assert (NO : Qb <> Opt Qb) by congruence.
      match goal with H : full Qb _ v |- _ =>
        destruct (full_arr_inv Qb _ _ _ _ NE NO (holds_self Qb) H) as (vs0 & -> & _) end.
      match goal with H : fits _ (VArr _) |- _ =>
        assert (Fv : Forall (fits Qb) vs0) by (inversion H; eapply fits_cells_some; eauto) end.
      unfold array_barrier. rewrite array_elems_some. cbn [bind]. rewrite same by auto.
      simpl in PB. rewrite PB. auto.
    + rewrite packing_id by auto. cbn [bind]. simpl in PB. rewrite PB. auto.
  - rewrite packing_id by auto. cbn [bind]. rewrite PB. auto.
Qed.
End Transparent.

(** * Values with missing parts *)

Lemma cells_or_panic l : (exists vs, l = map Some vs) \/ array_elems l = RunPanic.
Proof.
  unfold array_elems. induction l as [|[v|] l IH]; simpl; auto.
  - left. exists []. auto.
  - destruct IH as [(vs & ->)|E]; [left; exists (v :: vs); auto|right]. rewrite E. auto.
Qed.

Lemma row_or_panic elem : forall ts vs,
  fits_row ts vs -> Forall (simple elem) ts ->
  (forall t v, In (t, v) (combine ts vs) -> simple elem t -> fits t v -> full elem t v \/ unpack elem t v = RunPanic) ->
  full_row elem ts vs \/ unpack_row elem ts vs = RunPanic.
Proof.
  induction 1 as [|t ts v vs F Fr IH]; intros S H; simpl.
  - left. constructor.
  - inversion S; subst. destruct (H t v) as [L|P]; auto; [left; auto| |right; rewrite P; auto].
    destruct (IH) as [Lr|Pr]; auto.
    + intros; apply H; auto; right; auto.
    + left. constructor; auto.
    + right. destruct (roundtrip elem t v) as (ws & U & _); auto. rewrite U. simpl. rewrite Pr. auto.
Qed.

Lemma full_or_panic elem : forall t v, simple elem t -> fits t v ->
  full elem t v \/ unpack elem t v = RunPanic.
Proof.
  induction t using ty_ind'; intros v S F;
    match goal with |- full _ ?T _ \/ _ => destruct (holds_dec elem T) as [Hh|Hh]; [|left; apply full_none; auto] end;
    match goal with |- full _ ?T _ \/ _ => destruct (ty_dec T elem) as [E|E]; [left; rewrite E; constructor|] end.
  1,2,4: exfalso; inversion Hh; congruence.
  - assert (Ss : Forall (simple elem) l) by (inversion S; auto; try congruence; contradiction).
    assert (exists vs, v = VTup vs /\ fits_row l vs) as (vs & -> & Fr) by (inversion F; eauto).
    destruct (row_or_panic elem l vs) as [L|P]; auto.
    + intros t v I St Ft. rewrite Forall_forall in H. apply H; auto. apply in_combine_l in I. auto.
    + left. apply full_tup. auto.
    + right. rewrite (unpack_tup_eq elem _ _ (urow elem (Tup l))) by (auto using holds_row). rewrite P. auto.
  - assert (exists l, v = VArr l /\ length l = n /\ fits_cells k t l) as (l & -> & Ln & FC) by (inversion F; subst; eauto).
    rewrite (unpack_arr_eq elem _ _ _ _ (urow elem (Arr k n t))) by (auto using holds_row).
    destruct (cells_or_panic l) as [(vs & ->)|P]; [|right; rewrite P; auto].
    rewrite array_elems_some. cbn [bind]. apply fits_cells_some in FC.
    destruct (ty_dec t (Opt elem)) as [O|O].
    + subst t.
      assert (elem = Qb) as EQ.
      { inversion S; try congruence; try contradiction.
        match goal with H : simple elem (Opt elem) |- _ => apply simple_opt in H as [X|[_ X]] end;
          [exfalso; apply (opt_not_self elem); auto|congruence]. }
      assert (X : Forall (fun o => exists v, o = VSome v) vs \/
                  unpack_row elem (map (fun _ => Opt elem) vs) vs = RunPanic).
      { clear - FC EQ. induction FC as [|v vs F _ IH]; [auto|]. cbn [map unpack_row].
        assert (U : forall v, unpack elem (Opt elem) v = unpack_option elem (Opt elem) v).
        { intros. cbn [unpack]. pose proof (opt_not_self elem) as N. apply ty_eqb_neq in N. rewrite N.
          cbn [is_opt_of]. rewrite EQ at 1. rewrite ty_eqb_refl. auto. }
        rewrite U. unfold unpack_option. rewrite ty_eqb_refl. inversion F; subst; [right; auto|].
        simpl. destruct IH as [IH|IH]; [left; constructor; eauto|right; rewrite IH; auto]. }
      destruct X as [X|X]; [left|right; rewrite X; auto].
      apply full_opts. apply Forall_map. eapply Forall_impl; [|exact X]. intros a (w & ->). eauto.
    + assert (holds elem t /\ simple elem t) as (Ht & St).
      { inversion S; subst; try congruence; try contradiction; eauto 6. }
      destruct (row_or_panic elem (map (fun _ => t) vs) vs) as [L|P].
      * rewrite map_const_repeat. apply fits_row_of. auto.
      * apply Forall_map, Forall_forall. auto.
      * intros t' v I St' Ft. rewrite map_const_repeat in I. apply in_repeat_combine in I as [-> I]. auto.
      * left. apply full_arr; auto. rewrite map_const_repeat in L. eapply full_row_repeat; eauto.
      * right. rewrite P. auto.
Qed.
