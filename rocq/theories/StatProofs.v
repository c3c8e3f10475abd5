(** Proofs about static arrays of booleans. *)
From Coq Require Import List Bool Arith Lia.
From Verif Require Import StatModel StatSpec.
Import ListNotations.

(** *** Induction *)
Section Ind.
Variable P : ty -> Prop.
Hypothesis HB : P TBool.
Hypothesis HS : forall rows, Forall (Forall P) rows -> P (TSum rows).
Hypothesis HT : forall t, P t -> P (TStatic t).
Hypothesis HQ : forall k t, P t -> P (TSeq k t).
Hypothesis HP : forall k, P (TPlain k).
Hypothesis HF : forall ins outs, Forall P ins -> Forall P outs -> P (TFun ins outs).
Fixpoint ty_ind2 (t : ty) : P t :=
  let list_ind2 := fix go (l : list ty) : Forall P l := match l with [] => Forall_nil P | x :: l => Forall_cons x (ty_ind2 x) (go l) end in
  match t with
  | TBool => HB
  | TSum rows => HS rows ((fix go (l : list (list ty)) : Forall (Forall P) l := match l with [] => Forall_nil _ | x :: l => Forall_cons x (list_ind2 x) (go l) end) rows)
  | TStatic t => HT t (ty_ind2 t)
  | TSeq k t => HQ k t (ty_ind2 t)
  | TPlain k => HP k
  | TFun ins outs => HF ins outs (list_ind2 ins) (list_ind2 outs)
  end.
End Ind.
Section IndV.
Variable P : val -> Prop.
Hypothesis HB : forall b, P (VBool b).
Hypothesis HS : forall tag vs rows, Forall P vs -> P (VSum tag vs rows).
Hypothesis HT : forall e vs, Forall P vs -> P (VStatic e vs).
Hypothesis HQ : forall k e vs, Forall P vs -> P (VSeq k e vs).
Hypothesis HP : forall k n, P (VPlain k n).
Fixpoint val_ind2 (v : val) : P v :=
  let list_ind2 := fix go (l : list val) : Forall P l := match l with [] => Forall_nil P | x :: l => Forall_cons x (val_ind2 x) (go l) end in
  match v with
  | VBool b => HB b
  | VSum tag vs rows => HS tag vs rows (list_ind2 vs)
  | VStatic e vs => HT e vs (list_ind2 vs)
  | VSeq k e vs => HQ k e vs (list_ind2 vs)
  | VPlain k n => HP k n
  end.
End IndV.

Lemma rows_in : forall (P : ty -> Prop) rows, Forall (Forall P) rows -> forall row t, In row rows -> In t row -> P t.
Proof. intros P rows F row t A B. rewrite Forall_forall in F. specialize (F row A). rewrite Forall_forall in F. auto. Qed.
Lemma map_same : forall {X} (f : X -> X) l, (forall x, In x l -> f x = x) -> map f l = l.
Proof. intros X f. induction l as [|x l IH]; simpl; intros H; [reflexivity|]. rewrite H, IH; auto. Qed.
Lemma rows_same : forall (f : ty -> ty) rows, (forall row t, In row rows -> In t row -> f t = t) -> map (map f) rows = rows.
Proof. intros f rows H. apply map_same. intros row A. apply map_same. intros t B. eauto. Qed.
Lemma rows_ext : forall (f h : ty -> ty) rows, (forall row t, In row rows -> In t row -> f t = h t) -> map (map f) rows = map (map h) rows.
Proof. intros f h rows H. apply map_ext_in. intros row A. apply map_ext_in. intros t B. eauto. Qed.
Lemma ex_rows : forall (f : ty -> bool) rows, existsb (existsb f) rows = true <-> exists row t, In row rows /\ In t row /\ f t = true.
Proof.
  intros f rows. rewrite existsb_exists. split.
  - intros (row & A & B). apply existsb_exists in B as (t & B & C). eauto.
  - intros (row & t & A & B & C). exists row. split; [exact A|]. apply existsb_exists. eauto.
Qed.
Lemma ex_none : forall {X} (f : X -> bool) l, existsb f l = false <-> forall x, In x l -> f x = false.
Proof.
  intros X f l. induction l as [|x l IH]; simpl; [tauto|]. rewrite orb_false_iff, IH. split.
  - intros (A & B) y [<-|J]; auto.
  - auto.
Qed.

(** *** Types *)
Lemma in_iff : forall t, in_changes t = true <-> bool_in t.
Proof.
  induction t using ty_ind2; simpl.
  - split; [constructor|reflexivity].
  - rewrite ex_rows. pose proof (rows_in _ _ H) as R. split.
    + intros (row & t & A & B & C). econstructor; eauto. apply (R row t); auto.
    + intros X. inversion X as [|? row t A B C| | | |]; subst. exists row, t. repeat split; auto. apply (R row t); auto.
  - rewrite IHt. split; [constructor; assumption|intros X; inversion X; assumption].
  - rewrite IHt. split; [constructor; assumption|intros X; inversion X; assumption].
  - split; [discriminate|intros X; inversion X].
  - rewrite orb_true_iff, !existsb_exists. rewrite Forall_forall in H, H0. split.
    + intros [(t & A & B)|(t & A & B)]; [eapply bi_ins; eauto; apply H; auto|eapply bi_outs; eauto; apply H0; auto].
    + intros X. inversion X; subst; [left|right]; exists t; (split; [assumption|]); [apply H|apply H0]; auto.
Qed.
Lemma in_not : forall t, in_changes t = false <-> ~ bool_in t.
Proof. intros t. rewrite <- in_iff. destruct (in_changes t); split; congruence. Qed.
Lemma in_keeps : forall t, ~ bool_in t -> in_type t = t.
Proof.
  induction t using ty_ind2; simpl; intros N.
  - exfalso. apply N. constructor.
  - f_equal. apply rows_same. intros row t A B. apply (rows_in _ _ H row t A B). intros X. apply N. econstructor; eauto.
  - f_equal. apply IHt. intros X. apply N. now constructor.
  - f_equal. apply IHt. intros X. apply N. now constructor.
  - reflexivity.
  - rewrite Forall_forall in H, H0. f_equal; apply map_same; intros t A.
    + apply H; auto. intros X. apply N. eapply bi_ins; eauto.
    + apply H0; auto. intros X. apply N. eapply bi_outs; eauto.
Qed.
Lemma in_none : forall t, ~ bool_in (in_type t).
Proof.
  induction t using ty_ind2; simpl; intros X; inversion X; subst; auto.
  - match goal with A : In ?row bit_rows, B : In _ ?row |- _ => destruct A as [<-|[<-|[]]]; destruct B end.
  - match goal with A : In ?row (map _ rows), B : In _ ?row, C : bool_in _ |- _ =>
      apply in_map_iff in A as (row' & <- & A); apply in_map_iff in B as (t' & <- & B); apply (rows_in _ _ H row' t' A B); exact C end.
  - match goal with A : In _ (map _ ins), C : bool_in ?t |- _ => apply in_map_iff in A as (t' & <- & A); rewrite Forall_forall in H; apply (H t' A); assumption end.
  - match goal with A : In _ (map _ outs), C : bool_in ?t |- _ => apply in_map_iff in A as (t' & <- & A); rewrite Forall_forall in H0; apply (H0 t' A); assumption end.
Qed.
Lemma in_in : forall t, in_type (in_type t) = in_type t.
Proof. intros t. apply in_keeps, in_none. Qed.
Lemma in_out : forall t, in_type (out_type t) = in_type t.
Proof.
  induction t using ty_ind2; simpl.
  - reflexivity.
  - f_equal. rewrite map_map. apply map_ext_in. intros row A. rewrite map_map. apply map_ext_in. intros t B. apply (rows_in _ _ H row t A B).
  - destruct (in_changes (out_type t)); simpl; rewrite ?in_in, IHt; reflexivity.
  - f_equal. exact IHt.
  - reflexivity.
  - rewrite Forall_forall in H, H0. f_equal; rewrite map_map; apply map_ext_in; auto.
Qed.
Lemma out_static : forall t, out_type (TStatic t) = TStatic (in_type t).
Proof.
  intros t. simpl. destruct (in_changes (out_type t)) eqn:E; [now rewrite in_out|].
  apply in_not in E. apply in_keeps in E. rewrite in_out in E. now rewrite E.
Qed.
Lemma out_iff : forall t, bool_in (out_type t) <-> bool_out t.
Proof.
  induction t using ty_ind2.
  - simpl. split; constructor.
  - simpl. pose proof (rows_in _ _ H) as R. split; intros X; [inversion X as [|? row t A B C| | | |]|inversion X as [|? row t A B C| | |]]; subst; clear X.
    + apply in_map_iff in A as (row' & <- & A). apply in_map_iff in B as (t' & <- & B). econstructor; eauto. apply (R row' t'); auto.
    + apply bi_sum with (row := map out_type row) (t := out_type t); [apply in_map; auto|apply in_map; auto|]. apply (R row t); auto.
  - rewrite out_static. split; intros X; inversion X; subst. exfalso. eapply in_none; eassumption.
  - simpl. split; intros X; inversion X; subst; constructor; apply IHt; assumption.
  - simpl. split; intros X; inversion X.
  - simpl. rewrite Forall_forall in H, H0. split; intros X; inversion X; subst.
    + match goal with A : In _ (map _ ins) |- _ => apply in_map_iff in A as (t' & <- & A); eapply bo_ins; eauto; apply H; auto end.
    + match goal with A : In _ (map _ outs) |- _ => apply in_map_iff in A as (t' & <- & A); eapply bo_outs; eauto; apply H0; auto end.
    + eapply bi_ins; [apply in_map; eassumption|]. apply H; auto.
    + eapply bi_outs; [apply in_map; eassumption|]. apply H0; auto.
Qed.
Lemma out_clean : forall t, clean (out_type t).
Proof.
  induction t using ty_ind2.
  - constructor.
  - simpl. constructor. intros row t A B. apply in_map_iff in A as (row' & <- & A). apply in_map_iff in B as (t' & <- & B). apply (rows_in _ _ H row' t' A B).
  - rewrite out_static. constructor; [|apply in_none]. clear IHt. induction t using ty_ind2; simpl.
    + repeat constructor. intros row t [<-|[<-|[]]] [].
    + constructor. intros row t A B. apply in_map_iff in A as (row' & <- & A). apply in_map_iff in B as (t' & <- & B). apply (rows_in _ _ H row' t' A B).
    + constructor; [exact IHt|apply in_none].
    + constructor. exact IHt.
    + constructor.
    + rewrite Forall_forall in H, H0. constructor. intros t J. apply in_app_iff in J as [J|J]; apply in_map_iff in J as (t' & <- & J); auto.
  - simpl. constructor. exact IHt.
  - simpl. constructor.
  - simpl. rewrite Forall_forall in H, H0. constructor. intros t J. apply in_app_iff in J as [J|J]; apply in_map_iff in J as (t' & <- & J); auto.
Qed.
(** Without booleans outside static arrays, both do the same. *)
Lemma out_in : forall t, ~ bool_out t -> out_type t = in_type t.
Proof.
  intros t N. rewrite <- (in_out t). symmetry. apply in_keeps. rewrite out_iff. exact N.
Qed.
Lemma out_flag : forall t, out_changes t = false -> out_type t = t.
Proof.
  induction t using ty_ind2; intros E.
  - reflexivity.
  - simpl in *. f_equal. apply rows_same. intros row t A B. apply (rows_in _ _ H row t A B).
    rewrite ex_none in E. specialize (E row A). rewrite ex_none in E. auto.
  - rewrite out_static. simpl in E. apply orb_false_iff in E as (_ & E). f_equal. apply in_keeps, in_not, E.
  - simpl in *. f_equal. auto.
  - reflexivity.
  - simpl in *. rewrite Forall_forall in H, H0. apply orb_false_iff in E as (E1 & E2). rewrite ex_none in E1, E2. f_equal; apply map_same; auto.
Qed.
Lemma flags : forall t, ~ bool_out t -> out_changes t = in_changes t.
Proof.
  induction t using ty_ind2; intros N.
  - exfalso. apply N. constructor.
  - simpl. assert (G : forall row, In row rows -> existsb out_changes row = existsb in_changes row).
    { intros row A. assert (G : forall t, In t row -> out_changes t = in_changes t) by (intros t B; apply (rows_in _ _ H row t A B); intros X; apply N; econstructor; eauto).
      clear - G. induction row as [|t row IH]; simpl; [reflexivity|]. rewrite (G t), IH; simpl; auto. intros x B. apply G. simpl. auto. }
    clear - G. induction rows as [|t row IH]; simpl; [reflexivity|]. rewrite (G t), IH; simpl; auto. intros x B. apply G. simpl. auto.
  - simpl. destruct (in_changes t) eqn:E; [apply orb_true_r|]. rewrite orb_false_r.
    destruct (out_changes t) eqn:O; [|reflexivity]. exfalso.
    assert (NO : ~ bool_out t) by (intros X; apply in_not in E; apply E; clear - X; induction X; econstructor; eauto; fail).
    specialize (IHt NO). congruence.
  - simpl. apply IHt. intros X. apply N. now constructor.
  - reflexivity.
  - simpl. rewrite Forall_forall in H, H0. f_equal.
    + assert (G : forall t, In t ins -> out_changes t = in_changes t) by (intros t A; apply H; auto; intros X; apply N; eapply bo_ins; eauto).
      clear - G. induction ins as [|t row IH]; simpl; [reflexivity|]. rewrite (G t), IH; simpl; auto. intros x B. apply G. simpl. auto.
    + assert (G : forall t, In t outs -> out_changes t = in_changes t) by (intros t A; apply H0; auto; intros X; apply N; eapply bo_outs; eauto).
      clear - G. induction outs as [|t row IH]; simpl; [reflexivity|]. rewrite (G t), IH; simpl; auto. intros x B. apply G. simpl. auto.
Qed.
