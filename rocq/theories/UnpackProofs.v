(** Lemmas about the container unpacker. *)

From Coq Require Import List Arith Bool Lia.
From Verif Require Import UnpackModel UnpackSpec.
Import ListNotations.

(** * Types *)

Section TyInd.
Variable P : ty -> Prop.
Hypothesis HQ : P Qb.
Hypothesis HB : forall k, P (Base k).
Hypothesis HT : forall l, Forall P l -> P (Tup l).
Hypothesis HO : forall t, P t -> P (Opt t).
Hypothesis HA : forall k n t, P t -> P (Arr k n t).

Fixpoint ty_ind' (t : ty) : P t :=
  match t with
  | Qb => HQ
  | Base k => HB k
  | Tup l => HT l ((fix go l : Forall P l :=
                      match l with
                      | [] => Forall_nil _
                      | x :: l' => Forall_cons _ (ty_ind' x) (go l')
                      end) l)
  | Opt t' => HO t' (ty_ind' t')
  | Arr k n t' => HA k n t' (ty_ind' t')
  end.
End TyInd.

Lemma akind_eqb_eq a b : akind_eqb a b = true <-> a = b.
Proof. destruct a, b; simpl; split; congruence. Qed.

Lemma ty_eqb_eq : forall a b, ty_eqb a b = true <-> a = b.
Proof.
  induction a using ty_ind'; intros b; destruct b as [|k'|l'|t'|k' n' t']; simpl;
    try (split; congruence).
  - rewrite Nat.eqb_eq. split; congruence.
  - revert l'. induction H as [|x l Hx Hl IH]; intros [|y l']; simpl; try (split; congruence).
    rewrite andb_true_iff, Hx, IH. split; [intros [E1 E2]; congruence|intros E; injection E as -> ->; auto].
  - rewrite IHa. split; congruence.
  - rewrite !andb_true_iff, akind_eqb_eq, Nat.eqb_eq, IHa.
    split; [intros [[-> ->] ->]; auto|intros E; injection E as -> -> ->; auto].
Qed.

Lemma ty_eqb_refl a : ty_eqb a a = true.
Proof. apply ty_eqb_eq; auto. Qed.

Lemma ty_eqb_neq a b : ty_eqb a b = false <-> a <> b.
Proof.
  destruct (ty_eqb a b) eqn:E; split; intros; try congruence.
  - apply ty_eqb_eq in E; congruence.
  - intros ->. rewrite ty_eqb_refl in E. congruence.
Qed.

Lemma row_eqb_eq : forall l l', row_eqb l l' = true <-> l = l'.
Proof.
  induction l; intros [|y l']; simpl; try (split; congruence).
  rewrite andb_true_iff, ty_eqb_eq, IHl.
  split; [intros [-> ->]; auto|intros E; injection E as -> ->; auto].
Qed.

Lemma row_eqb_refl l : row_eqb l l = true.
Proof. apply row_eqb_eq; auto. Qed.

Lemma is_opt_of_eq t e : is_opt_of t e = true <-> t = Opt e.
Proof.
  destruct t; simpl; try (split; congruence).
  rewrite ty_eqb_eq. split; congruence.
Qed.

Lemma is_opt_of_neq t e : is_opt_of t e = false <-> t <> Opt e.
Proof.
  destruct (is_opt_of t e) eqn:E; split; intros; try congruence.
  - apply is_opt_of_eq in E; congruence.
  - intros ->. simpl in E. rewrite ty_eqb_refl in E. congruence.
Qed.

Lemma ty_dec (a b : ty) : a = b \/ a <> b.
Proof.
  destruct (ty_eqb a b) eqn:E; [left; apply ty_eqb_eq|right; apply ty_eqb_neq]; auto.
Qed.

(** * Rows *)

Section Elem.
Variable elem : ty.

Definition urow (t : ty) : list ty :=
  match unpack_type elem t with Some r => r | None => [t] end.

Lemma num_urow t : num_unpacked_wires elem t = length (urow t).
Proof. unfold num_unpacked_wires, urow. destruct (unpack_type elem t); auto. Qed.

Lemma unpack_type_self : unpack_type elem elem = Some [elem].
Proof.
  destruct elem eqn:E; cbn [unpack_type]; rewrite <- ?E, ty_eqb_refl; auto.
Qed.

Lemma unpack_type_tup ts :
  Tup ts <> elem ->
  unpack_type elem (Tup ts) =
  if existsb (contains_element_type elem) ts then Some (flat_map urow ts) else None.
Proof.
  intros H. cbn [unpack_type]. apply ty_eqb_neq in H. rewrite H.
  assert (E1 : existsb (fun p : ty * option (list ty) => match snd p with Some _ => true | None => false end)
                 (map (fun t => (t, unpack_type elem t)) ts) = existsb (contains_element_type elem) ts).
  { clear H. induction ts; simpl; auto. rewrite IHts. unfold contains_element_type. auto. }
  rewrite E1.
  assert (E2 : flat_map (fun p : ty * option (list ty) => match snd p with Some r => r | None => [fst p] end)
                 (map (fun t => (t, unpack_type elem t)) ts) = flat_map urow ts).
  { clear H E1. induction ts; simpl; auto. rewrite IHts. unfold urow. auto. }
  rewrite E2. auto.
Qed.

Lemma unpack_type_arr k n t :
  Arr k n t <> elem ->
  unpack_type elem (Arr k n t) =
  if is_opt_of t elem then Some (repeat elem n)
  else if contains_element_type elem t then Some (flat_map urow (repeat t n)) else None.
Proof.
  intros H. cbn [unpack_type]. apply ty_eqb_neq in H. rewrite H.
  destruct (is_opt_of t elem); auto.
  unfold contains_element_type, urow. destruct (unpack_type elem t) eqn:E; auto.
  f_equal. clear H. induction n; simpl; auto. rewrite IHn, E. auto.
Qed.

Lemma unpack_type_leaf t :
  t <> elem -> match t with Tup _ | Arr _ _ _ => False | _ => True end ->
  unpack_type elem t = None.
Proof.
  intros H L. apply ty_eqb_neq in H.
  destruct t; try contradiction; cbn [unpack_type]; rewrite H; auto.
Qed.

Lemma contains_holds : forall t, contains_element_type elem t = true <-> holds elem t.
Proof.
  induction t using ty_ind'.
  - destruct (ty_dec Qb elem) as [E|E].
    + unfold contains_element_type. rewrite E. rewrite unpack_type_self. split; auto. constructor.
    + unfold contains_element_type. rewrite unpack_type_leaf by auto. split; [congruence|].
      intros H. inversion H; congruence.
  - destruct (ty_dec (Base k) elem) as [E|E].
    + unfold contains_element_type. rewrite E. rewrite unpack_type_self. split; auto. constructor.
    + unfold contains_element_type. rewrite unpack_type_leaf by auto. split; [congruence|].
      intros H. inversion H; congruence.
  - destruct (ty_dec (Tup l) elem) as [E|E].
    + unfold contains_element_type. rewrite E. rewrite unpack_type_self. split; auto. constructor.
    + unfold contains_element_type at 1. rewrite unpack_type_tup by auto.
      destruct (existsb (contains_element_type elem) l) eqn:X.
      * split; auto. intros _. apply existsb_exists in X as (t & Ht & Hc).
        rewrite Forall_forall in H. apply H in Hc; auto. econstructor; eauto.
      * split; [congruence|]. intros Hh. inversion Hh; subst; try congruence.
        rewrite Forall_forall in H.
        assert (existsb (contains_element_type elem) l = true); [|congruence].
        apply existsb_exists. exists t. split; auto. apply H; auto.
  - destruct (ty_dec (Opt t) elem) as [E|E].
    + unfold contains_element_type. rewrite E. rewrite unpack_type_self. split; auto. constructor.
    + unfold contains_element_type. rewrite unpack_type_leaf by auto. split; [congruence|].
      intros H. inversion H; congruence.
  - destruct (ty_dec (Arr k n t) elem) as [E|E].
    + unfold contains_element_type. rewrite E. rewrite unpack_type_self. split; auto. constructor.
    + unfold contains_element_type at 1. rewrite unpack_type_arr by auto.
      destruct (is_opt_of t elem) eqn:O.
      * apply is_opt_of_eq in O. subst. split; auto. constructor.
      * apply is_opt_of_neq in O. destruct (contains_element_type elem t) eqn:C.
        { split; auto. intros _. apply holds_arr. apply IHt; auto. }
        { split; [congruence|]. intros Hh. inversion Hh; subst; try congruence.
          apply IHt in H0. congruence. }
Qed.

Lemma holds_row t : holds elem t -> unpack_type elem t = Some (urow t).
Proof.
  intros H. apply contains_holds in H. unfold contains_element_type, urow in *.
  destruct (unpack_type elem t); congruence.
Qed.

Lemma not_holds_row t : ~ holds elem t -> unpack_type elem t = None.
Proof.
  intros H. rewrite <- contains_holds in H. unfold contains_element_type in H.
  destruct (unpack_type elem t); congruence.
Qed.

Lemma holds_dec t : holds elem t \/ ~ holds elem t.
Proof.
  destruct (contains_element_type elem t) eqn:E.
  - left. apply contains_holds; auto.
  - right. rewrite <- contains_holds. congruence.
Qed.

Lemma urow_none t : ~ holds elem t -> urow t = [t].
Proof. intros H. unfold urow. rewrite not_holds_row; auto. Qed.

Lemma urow_tup ts : Tup ts <> elem -> holds elem (Tup ts) -> urow (Tup ts) = flat_map urow ts.
Proof.
  intros E H. apply holds_row in H. rewrite unpack_type_tup in H by auto.
  destruct (existsb _ ts); congruence.
Qed.

Lemma urow_arr k n t : Arr k n t <> elem -> t <> Opt elem -> holds elem t ->
  urow (Arr k n t) = flat_map urow (repeat t n).
Proof.
  intros E O H. unfold urow at 1. rewrite unpack_type_arr by auto.
  apply is_opt_of_neq in O. rewrite O. apply contains_holds in H. rewrite H. auto.
Qed.

Lemma urow_opts k n : Arr k n (Opt elem) <> elem -> urow (Arr k n (Opt elem)) = repeat elem n.
Proof.
  intros E. unfold urow. rewrite unpack_type_arr by auto. simpl. rewrite ty_eqb_refl. auto.
Qed.

Lemma length_flat_repeat t n : length (flat_map urow (repeat t n)) = n * length (urow t).
Proof. induction n; simpl; auto. rewrite app_length, IHn. auto. Qed.

(** The number of wires. *)
Lemma wires_total : forall t, wires_of elem t (length (urow t)).
Proof.
  induction t using ty_ind'.
  1,2,4: match goal with |- wires_of _ ?T _ =>
    destruct (ty_dec T elem) as [E|E];
    [ unfold urow; rewrite E, unpack_type_self; simpl; constructor
    | rewrite urow_none; [apply wires_none|]; intros X; inversion X; congruence ]
    end.
  - destruct (ty_dec (Tup l) elem) as [E|E].
    { unfold urow. rewrite E, unpack_type_self. simpl. constructor. }
    destruct (holds_dec (Tup l)) as [Hh|Hh].
    + rewrite urow_tup by auto. apply wires_tup; auto. clear - H.
      induction H; simpl; [constructor|]. rewrite app_length. constructor; auto.
    + rewrite urow_none by auto. apply wires_none. auto.
  - destruct (ty_dec (Arr k n t) elem) as [E|E].
    { unfold urow. rewrite E, unpack_type_self. simpl. constructor. }
    destruct (ty_dec t (Opt elem)) as [O|O].
    + subst. rewrite urow_opts by auto. rewrite repeat_length. constructor. auto.
    + destruct (holds_dec t) as [Hh|Hh].
      * rewrite urow_arr, length_flat_repeat by auto. apply wires_arr; auto.
      * assert (~ holds elem (Arr k n t)) by (intros X; inversion X; congruence).
        rewrite urow_none by auto. apply wires_none; auto.
Qed.

Scheme wires_of_mut := Induction for wires_of Sort Prop
with wires_row_mut := Induction for wires_row Sort Prop.

Lemma wires_unique : forall t c, wires_of elem t c -> c = length (urow t).
Proof.
  apply (wires_of_mut elem (fun t c _ => c = length (urow t))
           (fun ts c _ => c = length (flat_map urow ts))).
  - unfold urow. rewrite unpack_type_self. auto.
  - intros t H. rewrite urow_none; auto.
  - intros ts k E H _ IH. rewrite urow_tup; auto.
  - intros k n E. rewrite urow_opts, repeat_length; auto.
  - intros k n t c E O H _ IH. rewrite urow_arr, length_flat_repeat by auto. congruence.
  - auto.
  - intros t ts a b _ IHa _ IHb. simpl. rewrite app_length. congruence.
Qed.

(** * The tuple and array cases as rows *)

Lemma unpack_tup_eq ts v row :
  Tup ts <> elem -> unpack_type elem (Tup ts) = Some row ->
  unpack elem (Tup ts) v =
  match v with
  | VTup vs => bind (unpack_row elem ts vs) (check_row row)
  | _ => BuildErr
  end.
Proof.
  intros H R. cbn [unpack]. rewrite R. apply ty_eqb_neq in H. rewrite H. cbn [is_opt_of].
  destruct v; auto.
Qed.

Lemma bind_assoc {A B C} (x : res A) (f : A -> res B) (g : B -> res C) :
  bind (bind x f) g = bind x (fun a => bind (f a) g).
Proof. destruct x; auto. Qed.

Lemma bind_ext {A B} (x : res A) (f g : A -> res B) :
  (forall a, f a = g a) -> bind x f = bind x g.
Proof. destruct x; simpl; auto. Qed.

Lemma unpack_elems_row t : forall vs k,
  bind (all_ok (map (unpack elem t) vs)) (fun wss => k (concat wss)) =
  bind (unpack_row elem (map (fun _ => t) vs) vs) (k : list wire -> res (list wire)).
Proof.
  induction vs as [|v vs IH]; intros k; simpl; auto.
  rewrite !bind_assoc. apply bind_ext. intros ws.
  rewrite !bind_assoc. cbn [bind]. simpl concat.
  rewrite (IH (fun l => k (ws ++ l))). rewrite ?bind_assoc. auto.
Qed.

Lemma unpack_arr_eq kd n t v row :
  Arr kd n t <> elem -> unpack_type elem (Arr kd n t) = Some row ->
  unpack elem (Arr kd n t) v =
  match v with
  | VArr l => bind (array_elems l) (fun vs =>
              bind (unpack_row elem (map (fun _ => t) vs) vs) (check_row row))
  | _ => BuildErr
  end.
Proof.
  intros H R. cbn [unpack]. rewrite R. apply ty_eqb_neq in H. rewrite H. cbn [is_opt_of].
  destruct v; auto. apply bind_ext. intros vs. apply unpack_elems_row.
Qed.

Lemma unpack_none t v :
  unpack_type elem t = None -> t <> Opt Qb -> unpack elem t v = Ok [(t, v)].
Proof.
  intros R O. assert (E : t <> elem) by (intros ->; rewrite unpack_type_self in R; congruence).
  apply ty_eqb_neq in E. apply is_opt_of_neq in O.
  destruct t; cbn [unpack]; rewrite ?R, E, O; auto.
Qed.

Lemma unpack_self v : unpack elem elem v = Ok [(elem, v)].
Proof. destruct elem eqn:E; cbn [unpack]; rewrite <- ?E, ty_eqb_refl; auto. Qed.

Lemma repack_self ws : repack elem elem ws = first_wire ws.
Proof. destruct elem eqn:E; cbn [repack]; rewrite <- ?E, ty_eqb_refl; auto. Qed.

Lemma repack_none t ws :
  unpack_type elem t = None -> t <> Opt elem -> repack elem t ws = first_wire ws.
Proof.
  intros R O. assert (E : t <> elem) by (intros ->; rewrite unpack_type_self in R; congruence).
  apply ty_eqb_neq in E. apply is_opt_of_neq in O.
  destruct t; cbn [repack]; rewrite ?R, E, O; auto.
Qed.

Lemma repack_tup_eq ts ws row :
  Tup ts <> elem -> unpack_type elem (Tup ts) = Some row ->
  repack elem (Tup ts) ws =
  bind (check_row row ws) (fun ws =>
  bind (repack_row elem ts ws) (fun es =>
  if row_eqb (map fst es) ts then Ok (Tup ts, VTup (map snd es)) else BuildErr)).
Proof.
  intros H R. cbn [repack]. rewrite R. apply ty_eqb_neq in H. rewrite H. cbn [is_opt_of].
  apply bind_ext. auto.
Qed.

Lemma chunks_row t c : c = num_unpacked_wires elem t -> c <> 0 -> forall n ws,
  length ws = n * c ->
  all_ok (map (repack elem t) (chunks c ws)) = repack_row elem (repeat t n) ws.
Proof.
  intros Ec Hc. unfold chunks.
  assert (G : forall n f ws, length ws = n * c -> length ws <= f ->
             all_ok (map (repack elem t) (chunks_fuel f c ws)) = repack_row elem (repeat t n) ws).
  { induction n; intros f ws L F.
    - destruct ws; simpl in *; try lia. destruct f; auto.
    - destruct ws as [|w ws]; [simpl in L; lia|]. destruct f as [|f]; [simpl in F; lia|].
      simpl repeat. cbn [repack_row chunks_fuel map all_ok]. rewrite <- Ec.
      apply bind_ext. intros a. rewrite (IHn f); auto.
      + rewrite skipn_length, L. lia.
      + rewrite skipn_length. lia. }
  intros n ws L. apply G; auto.
Qed.

Lemma repack_arr_eq kd n t ws row :
  Arr kd n t <> elem -> unpack_type elem (Arr kd n t) = Some row ->
  num_unpacked_wires elem t <> 0 -> length row = n * num_unpacked_wires elem t ->
  repack elem (Arr kd n t) ws =
  bind (check_row row ws) (fun ws =>
  bind (repack_row elem (repeat t n) ws) (fun es =>
  if row_eqb (map fst es) (repeat t n)
  then Ok (Arr kd n t, VArr (map (fun e => Some (snd e)) es)) else BuildErr)).
Proof.
  intros H R N L. cbn [repack]. rewrite R. apply ty_eqb_neq in H. rewrite H. cbn [is_opt_of].
  apply Nat.eqb_neq in N as N'. rewrite N'.
  unfold check_row. destruct (row_eqb (map fst ws) row) eqn:X; auto. simpl.
  apply row_eqb_eq in X. rewrite (chunks_row t _ eq_refl N n); auto.
  rewrite <- L, <- X, map_length. auto.
Qed.

(** * Round trips *)

Definition elems (ws : list wire) : list value :=
  map snd (filter (fun w => ty_eqb (fst w) elem) ws).

Lemma elems_app a b : elems (a ++ b) = elems a ++ elems b.
Proof. unfold elems. rewrite filter_app, map_app. auto. Qed.

Definition good (t : ty) (v : value) : Prop :=
  exists ws, unpack elem t v = Ok ws /\ map fst ws = urow t /\
             elements elem t v (elems ws) /\ repack elem t ws = Ok (t, v).

Lemma good_row : forall ts vs,
  length ts = length vs ->
  (forall t v, In (t, v) (combine ts vs) -> good t v) ->
  exists ws, unpack_row elem ts vs = Ok ws /\ map fst ws = flat_map urow ts /\
             elements_row elem ts vs (elems ws) /\ repack_row elem ts ws = Ok (combine ts vs).
Proof.
  induction ts as [|t ts IH]; intros [|v vs] L G; simpl in L; try lia.
  - exists []. simpl. repeat split; auto. constructor.
  - destruct (G t v) as (w & U & F & E & R); [left; auto|].
    destruct (IH vs) as (ws & U' & F' & E' & R'); [lia|intros; apply G; right; auto|].
    exists (w ++ ws). simpl. rewrite U. simpl. rewrite U'. simpl.
    assert (Lw : length w = num_unpacked_wires elem t).
    { rewrite num_urow, <- F, map_length. auto. }
    repeat split; auto.
    + rewrite map_app. f_equal; auto.
    + rewrite elems_app. constructor; auto.
    + rewrite <- Lw, firstn_app, firstn_all, Nat.sub_diag, skipn_app, skipn_all, Nat.sub_diag.
      simpl. rewrite app_nil_r, R. simpl. rewrite R'. auto.
Qed.

Lemma good_leaf t v : ~ holds elem t -> t <> Opt Qb -> t <> Opt elem -> good t v.
Proof.
  intros H O O'. exists [(t, v)].
  rewrite unpack_none, repack_none, urow_none by (auto using not_holds_row).
  repeat split; auto. unfold elems. simpl.
  assert (E : t <> elem) by (intros ->; apply H; constructor).
  apply ty_eqb_neq in E. rewrite E. simpl. constructor; auto.
Qed.

Lemma good_self v : good elem v.
Proof.
  exists [(elem, v)]. rewrite unpack_self, repack_self. unfold urow. rewrite unpack_type_self.
  repeat split; auto. unfold elems. simpl. rewrite ty_eqb_refl. simpl. constructor.
Qed.

Lemma opt_not_self (t : ty) : Opt t <> t.
Proof. induction t; try congruence. Qed.

Lemma simple_opt t : simple elem (Opt t) -> Opt t = elem \/ t <> Qb /\ t <> elem.
Proof.
  intros H. inversion H; subst; auto. right. split; congruence.
Qed.

Lemma fits_row_combine : forall ts vs, fits_row ts vs ->
  length ts = length vs /\ (forall t v, In (t, v) (combine ts vs) -> fits t v).
Proof.
  induction 1; simpl; split; try tauto.
  - destruct IHfits_row; lia.
  - destruct IHfits_row as [_ I]. intros t' v' [E|E]; auto. congruence.
Qed.

Lemma full_row_combine : forall ts vs, full_row elem ts vs ->
  (forall t v, In (t, v) (combine ts vs) -> full elem t v).
Proof.
  induction 1; simpl; try tauto. intros t' v' [E|E]; auto. congruence.
Qed.

Lemma full_cells_some : forall t l, full_cells elem t l ->
  exists vs, l = map Some vs /\ Forall (full elem t) vs.
Proof.
  induction 1.
  - exists []. auto.
  - destruct IHfull_cells as (vs & -> & F). exists (v :: vs). auto.
Qed.

Lemma array_elems_some vs : array_elems (map Some vs) = Ok vs.
Proof. unfold array_elems. induction vs; simpl in *; auto. rewrite IHvs. auto. Qed.

Lemma fits_cells_some k t : forall vs, fits_cells k t (map Some vs) -> Forall (fits t) vs.
Proof.
  induction vs; simpl; intros H; constructor; inversion H; subst; auto.
Qed.

Lemma map_const_repeat {A B} (x : B) : forall l : list A, map (fun _ => x) l = repeat x (length l).
Proof. induction l; simpl; congruence. Qed.

Lemma combine_fst {A B} : forall (l : list A) (l' : list B), length l = length l' -> map fst (combine l l') = l.
Proof. induction l; intros [|] L; simpl in *; try lia; auto. rewrite IHl; auto. Qed.
Lemma combine_snd {A B} : forall (l : list A) (l' : list B), length l = length l' -> map snd (combine l l') = l'.
Proof. induction l; intros [|] L; simpl in *; try lia; auto. rewrite IHl; auto. Qed.

Lemma in_repeat_combine {A B} (x : A) : forall n (l : list B) y z, In (y, z) (combine (repeat x n) l) -> y = x /\ In z l.
Proof.
  induction n; intros [|b l] y z; simpl; try tauto.
  intros [E|E]; [injection E as <- <-; auto|]. apply IHn in E. tauto.
Qed.

Lemma roundtrip : forall t v, simple elem t -> fits t v -> full elem t v -> good t v.
Proof.
  induction t using ty_ind'; intros v S F L;
    match goal with |- good ?T _ => destruct (ty_dec T elem) as [E|E] end;
    try (rewrite E; apply good_self).
  - apply good_leaf; try congruence. intros X; inversion X; congruence.
  - apply good_leaf; try congruence. intros X; inversion X; congruence.
  - destruct (holds_dec (Tup l)) as [Hh|Hh]; [|apply good_leaf; auto; congruence].
    assert (Ss : Forall (simple elem) l) by (inversion S; auto; try congruence; contradiction).
    assert (exists vs, v = VTup vs /\ full_row elem l vs) as (vs & -> & FL).
    { inversion L; subst; try congruence; try contradiction; eauto. }
    assert (FR : fits_row l vs) by (inversion F; auto).
    destruct (fits_row_combine _ _ FR) as [Len FC].
    destruct (good_row l vs Len) as (ws & U & T & El & R).
    { intros t v I. rewrite Forall_forall in H, Ss.
      assert (In t l) by (apply in_combine_l in I; auto).
      apply H; auto. eapply full_row_combine; eauto. }
    exists ws. rewrite (unpack_tup_eq _ _ (urow (Tup l))), (repack_tup_eq _ _ (urow (Tup l)))
      by (auto using holds_row).
    rewrite U. simpl. unfold check_row. rewrite T, urow_tup by auto.
    rewrite row_eqb_refl. simpl. rewrite R. simpl.
    rewrite combine_fst, combine_snd, row_eqb_refl by auto.
    repeat split; auto. apply el_tup; auto.
  - apply simple_opt in S as [S|[S1 S2]]; [congruence|].
    apply good_leaf; try congruence. intros X; inversion X; congruence.
  - destruct (holds_dec (Arr k n t)) as [Hh|Hh]; [|apply good_leaf; auto; congruence].
    assert (exists l, v = VArr l /\ length l = n /\ fits_cells k t l) as (l & -> & Ln & FC).
    { inversion F; subst; eauto. }
    destruct (ty_dec t (Opt elem)) as [O|O].
    + (* options *)
      subst t.
      assert (elem = Qb) as EQ.
      { inversion S; try congruence; try contradiction.
        match goal with H : simple elem (Opt elem) |- _ => apply simple_opt in H as [X|[_ X]] end;
          [exfalso; apply (opt_not_self elem); auto|congruence]. }
      assert (exists vs, l = map (fun v => Some (VSome v)) vs) as (vs & ->).
      { assert (Fo : Forall (fun o => exists v, o = Some (VSome v)) l).
        { inversion L; subst; try congruence; auto; contradiction. }
        clear - Fo. induction Fo as [|o l [v ->] _ [vs ->]]; [exists []|exists (v :: vs)]; auto. }
      rewrite map_length in Ln.
      replace (map (fun v => Some (VSome v)) vs) with (map Some (map VSome vs)) in * by (rewrite map_map; auto).
      exists (map (fun v => (elem, v)) vs).
      assert (N1 : num_unpacked_wires elem (Opt elem) = 1).
      { unfold num_unpacked_wires. rewrite unpack_type_leaf; auto. apply opt_not_self. }
      assert (T : map fst (map (fun v => (elem, v)) vs) = repeat elem n).
      { rewrite map_map. simpl. rewrite map_const_repeat. congruence. }
      rewrite (unpack_arr_eq _ _ _ _ (urow (Arr k n (Opt elem)))), (repack_arr_eq _ _ _ _ (urow (Arr k n (Opt elem))))
        by (auto using holds_row; try (rewrite N1; lia); try (rewrite urow_opts, repeat_length by auto; rewrite N1; lia)).
      rewrite array_elems_some. cbn [bind]. rewrite urow_opts by auto.
      assert (U : unpack_row elem (map (fun _ => Opt elem) (map VSome vs)) (map VSome vs) = Ok (map (fun v => (elem, v)) vs)).
      { clear - EQ. induction vs; [auto|]. cbn [map unpack_row]. rewrite IHvs.
        assert (X : unpack elem (Opt elem) (VSome a) = Ok [(elem, a)]).
        { cbn [unpack]. pose proof (opt_not_self elem) as N. apply ty_eqb_neq in N. rewrite N.
          cbn [is_opt_of]. rewrite EQ at 1. rewrite ty_eqb_refl. unfold unpack_option. rewrite ty_eqb_refl. auto. }
        rewrite X. auto. }
      assert (R : repack_row elem (repeat (Opt elem) n) (map (fun v => (elem, v)) vs) =
                  Ok (map (fun v => (Opt elem, VSome v)) vs)).
      { rewrite <- Ln. clear - N1. induction vs; [auto|]. cbn [length repeat map repack_row].
        rewrite N1. cbn [firstn skipn]. rewrite IHvs.
        assert (X : repack elem (Opt elem) (@cons wire (elem, a) (@nil wire)) = Ok (Opt elem, VSome a)).
        { cbn [repack]. pose proof (opt_not_self elem) as N. apply ty_eqb_neq in N. rewrite N.
          cbn [is_opt_of]. rewrite ty_eqb_refl. cbn [first_wire bind]. unfold repack_option. cbn [fst snd].
          rewrite ty_eqb_refl. auto. }
        rewrite X. auto. }
      rewrite U. cbn [bind]. unfold check_row. rewrite T, row_eqb_refl. cbn [bind]. rewrite R. cbn [bind].
      rewrite !map_map. cbn [fst snd]. rewrite map_const_repeat, Ln, row_eqb_refl.
      repeat split; auto.
      apply el_opts; auto. rewrite ?map_map. unfold elems.
      clear. induction vs; simpl; auto. rewrite ty_eqb_refl. simpl. congruence.
    + assert (holds elem t /\ simple elem t /\ exists c, wires_of elem t c /\ c <> 0) as (Ht & St & c & Wc & Nc).
      { inversion S; subst; try congruence; try contradiction; eauto 6. }
      apply wires_unique in Wc.
      assert (exists vs, l = map Some vs /\ Forall (full elem t) vs) as (vs & -> & Fv).
      { apply full_cells_some. inversion L; subst; try congruence; auto; contradiction. }
      rewrite map_length in Ln.
      apply fits_cells_some in FC. rewrite Forall_forall in FC, Fv.
      destruct (good_row (repeat t n) vs) as (ws & U & T & El & R).
      { rewrite repeat_length. auto. }
      { intros t' v I. apply in_repeat_combine in I as [-> I]. apply IHt; auto. }
      exists ws.
      rewrite (unpack_arr_eq _ _ _ _ (urow (Arr k n t))), (repack_arr_eq _ _ _ _ (urow (Arr k n t)))
        by (auto using holds_row; rewrite ?num_urow; try (rewrite urow_arr, length_flat_repeat by auto); congruence).
      rewrite array_elems_some. cbn [bind]. rewrite map_const_repeat, Ln, U. cbn [bind]. unfold check_row.
      rewrite urow_arr, T, row_eqb_refl by auto. cbn [bind]. rewrite R. cbn [bind].
      rewrite combine_fst, row_eqb_refl by (rewrite repeat_length; auto).
      repeat split; auto.
      * eapply el_arr; eauto. rewrite map_const_repeat, Ln. auto.
      * rewrite <- (map_map snd Some), combine_snd by (rewrite repeat_length; auto). auto.
Qed.
End Elem.
