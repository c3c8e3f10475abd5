(** Correctness of the QSystem decompositions. *)
From Coq Require Import Reals Lra Lia List Bool Arith FunctionalExtensionality.
From Verif Require Import QComplex QState OpsModel GateSpec GateFacts ModifierOps QSysSpec QSysModel.
Import ListNotations.
Open Scope R_scope.

Arguments upd : simpl never.

(** ** Sixteenth roots of unity *)

Definition w : C := cexp (PI / 8).
Fixpoint wp (k : nat) : C := match k with O => 1%C | Datatypes.S k => (w * wp k)%C end.

Lemma wp_cexp : forall k, cexp (INR k * (PI / 8)) = wp k.
Proof.
  induction k as [|k IH].
  - simpl. rewrite Rmult_0_l. apply cexp_0.
  - rewrite S_INR. replace ((INR k + 1) * (PI / 8)) with (PI / 8 + INR k * (PI / 8)) by field.
    rewrite cexp_add, IH. reflexivity.
Qed.

Lemma cexp_2PI : cexp (2 * PI) = 1%C.
Proof. replace (2 * PI) with (PI + PI) by ring. rewrite cexp_add, cexp_PI. ring. Qed.

Lemma cexp_wp : forall k x, x = INR k * (PI / 8) \/ x = INR k * (PI / 8) - 2 * PI -> cexp x = wp k.
Proof.
  intros k x [-> | ->]; [apply wp_cexp|].
  rewrite <- wp_cexp.
  transitivity (cexp (INR k * (PI / 8) - 2 * PI) * cexp (2 * PI))%C.
  - rewrite cexp_2PI; ring.
  - rewrite <- cexp_add. f_equal; ring.
Qed.

Lemma w8 : (w * (w * (w * (w * (w * (w * (w * w)))))))%C = (- (1))%C.
Proof.
  transitivity (wp 8); [simpl; ring|]. rewrite <- wp_cexp. rewrite <- cexp_PI. f_equal. simpl; field.
Qed.

Lemma Ci_w : Ci = wp 4.
Proof. rewrite <- cexp_PI2. apply cexp_wp. left; simpl; field. Qed.

Ltac wexp1 x k := replace (cexp x) with (wp k) by (symmetry; apply cexp_wp; unfold pim; first [left; simpl; field | right; simpl; field]).
Ltac wexp :=
  repeat match goal with
  | |- context [cexp ?x] =>
     first [ wexp1 x 0%nat | wexp1 x 1%nat | wexp1 x 2%nat | wexp1 x 3%nat | wexp1 x 4%nat | wexp1 x 5%nat
           | wexp1 x 6%nat | wexp1 x 7%nat | wexp1 x 8%nat | wexp1 x 9%nat | wexp1 x 10%nat | wexp1 x 11%nat
           | wexp1 x 12%nat | wexp1 x 13%nat | wexp1 x 14%nat | wexp1 x 15%nat ]
  end.
Ltac wring := rewrite ?Ci_w; cbn [wp]; ring [w8].

(** PhasedX in terms of [cexp]. *)
Definition half : C := RtoC (/ 2).
Lemma half2 : ((1 + 1) * half)%C = 1%C.
Proof. apply C_eq; cunfold; field. Qed.
Definition PX2 (t p : R) : mat :=
  Mat (cexp (t / 2) + cexp (- (t / 2)))%C
      ((cexp (- (t / 2)) - cexp (t / 2)) * cexp (- p))%C
      ((cexp (- (t / 2)) - cexp (t / 2)) * cexp p)%C
      (cexp (t / 2) + cexp (- (t / 2)))%C.

Lemma mscale_mscale : forall k l M, mscale k (mscale l M) = mscale (k * l)%C M.
Proof. intros; apply mat_eq; simpl; ring. Qed.
Lemma mscale_l : forall k A B, mmul (mscale k A) B = mscale k (mmul A B).
Proof. intros; apply mat_eq; simpl; ring. Qed.
Lemma mscale_r : forall k A B, mmul A (mscale k B) = mscale k (mmul A B).
Proof. intros; apply mat_eq; simpl; ring. Qed.
Lemma mscale_1 : forall M, mscale 1%C M = M.
Proof. intros; apply mat_eq; simpl; ring. Qed.

Lemma PX_PX2 : forall t p, QPhasedXM t p = mscale half (PX2 t p).
Proof.
  intros t p. unfold QPhasedXM, QRzM.
  assert (Hd : QRxM t = mscale half (Mat (cexp (t / 2) + cexp (- (t / 2)))%C
      (cexp (- (t / 2)) - cexp (t / 2))%C (cexp (- (t / 2)) - cexp (t / 2))%C
      (cexp (t / 2) + cexp (- (t / 2)))%C)).
  { unfold QRxM, half; mauto; rewrite ?cos_neg, ?sin_neg; field. }
  rewrite Hd. rewrite mscale_l, mscale_r. f_equal. unfold PX2.
  replace (- (- p / 2)) with (p / 2) by field. replace (- p / 2) with (- (p / 2)) by field.
  assert (E1 : (cexp (- (p / 2)) * cexp (p / 2))%C = 1%C) by apply cexp_neg'.
  assert (E2 : (cexp (- (p / 2)) * cexp (- (p / 2)))%C = cexp (- p)) by (rewrite <- cexp_add; f_equal; field).
  assert (E3 : (cexp (p / 2) * cexp (p / 2))%C = cexp p) by (rewrite <- cexp_add; f_equal; field).
  rewrite <- E2, <- E3.
  clear E2 E3 Hd.
  set (u := cexp (p / 2)) in *; set (v := cexp (- (p / 2))) in *.
  clearbody u v. apply mat_eq; simpl.
  - transitivity ((v * u) * (cexp (t / 2) + cexp (- (t / 2))))%C; [ring | rewrite E1; ring].
  - ring.
  - ring.
  - transitivity ((v * u) * (cexp (t / 2) + cexp (- (t / 2))))%C; [ring | rewrite E1; ring].
Qed.

(** ** Block-diagonal operations on one target *)

Definition BD (f : basis -> mat) (t : nat) (psi : state) : state :=
  fun b => (mget (f b) (b t) false * psi (upd b t false) + mget (f b) (b t) true * psi (upd b t true))%C.
Definition indep (t : nat) (f : basis -> mat) : Prop := forall b v, f (upd b t v) = f b.

Lemma mget_mmul : forall A B x y,
  mget (mmul A B) x y = (mget A x false * mget B false y + mget A x true * mget B true y)%C.
Proof. intros A B [] []; reflexivity. Qed.

Lemma BD_comp : forall f g t psi, indep t g ->
  BD f t (BD g t psi) = BD (fun b => mmul (f b) (g b)) t psi.
Proof.
  intros f g t psi Hg; apply functional_extensionality; intro b. unfold BD.
  rewrite !Hg, !upd_same, !upd_upd, !mget_mmul. ring.
Qed.

Lemma BD_ext : forall f g t psi, (forall b, f b = g b) -> BD f t psi = BD g t psi.
Proof. intros f g t psi H; unfold BD; apply functional_extensionality; intro b; rewrite H; reflexivity. Qed.

Lemma mget_I : forall k x, mget (mscale k mI) x x = k.
Proof. intros k []; simpl; ring. Qed.

Lemma BD_scalar : forall k t psi, BD (fun b => mscale (k b) mI) t psi = fun b => (k b * psi b)%C.
Proof.
  intros k t psi; apply functional_extensionality; intro b. unfold BD.
  destruct (b t) eqn:E; simpl.
  - assert (Hb : upd b t true = b) by (rewrite <- E; apply upd_id). rewrite Hb; ring.
  - assert (Hb : upd b t false = b) by (rewrite <- E; apply upd_id). rewrite Hb; ring.
Qed.

Lemma CU_BD : forall K M t psi, CU K M t psi = BD (fun b => if all1 K b then M else mI) t psi.
Proof.
  intros K M t psi; apply functional_extensionality; intro b. unfold CU, BD.
  destruct (all1 K b); [reflexivity|].
  destruct (b t) eqn:E; simpl.
  - assert (Hb : upd b t true = b) by (rewrite <- E; apply upd_id). rewrite Hb; ring.
  - assert (Hb : upd b t false = b) by (rewrite <- E; apply upd_id). rewrite Hb; ring.
Qed.

Lemma CU0_BD : forall M t psi, CU [] M t psi = BD (fun _ => M) t psi.
Proof. intros; rewrite CU_BD; reflexivity. Qed.

(** Rz on another qubit *)
Lemma Rz_BD : forall a t l psi,
  CU [] (QRzM l) a psi = BD (fun b => mscale (if b a then cexp (l / 2) else cexp (- (l / 2))) mI) t psi.
Proof.
  intros a t l psi. rewrite (BD_scalar (fun b => if b a then cexp (l / 2) else cexp (- (l / 2)))).
  apply functional_extensionality; intro b. unfold CU; simpl.
  destruct (b a) eqn:E; simpl.
  - assert (Hb : upd b a true = b) by (rewrite <- E; apply upd_id). rewrite Hb; ring.
  - assert (Hb : upd b a false = b) by (rewrite <- E; apply upd_id). rewrite Hb; ring.
Qed.

Lemma ZZ_BD : forall a t th psi, a <> t ->
  qgate_sem (QZZ a t th) psi = BD (fun b => if b a then QRzM (- th) else QRzM th) t psi.
Proof.
  intros a t th psi Hat; apply functional_extensionality; intro b. unfold BD, qgate_sem.
  destruct (b a), (b t) eqn:E; simpl;
  match goal with |- context [upd b t ?v] => idtac end.
  1,3: assert (Hb : upd b t true = b) by (rewrite <- E; apply upd_id).
  3,4: assert (Hb : upd b t false = b) by (rewrite <- E; apply upd_id).
  all: rewrite Hb.
  - replace (- th / 2) with (- (th / 2)) by field. ring.
  - ring.
  - replace (- (- th / 2)) with (th / 2) by field. ring.
  - ring.
Qed.

Lemma ZZ_other_BD : forall a b0 t th psi,
  qgate_sem (QZZ a b0 th) psi =
  BD (fun b => mscale (if Bool.eqb (b a) (b b0) then cexp (- (th / 2)) else cexp (th / 2)) mI) t psi.
Proof.
  intros. rewrite (BD_scalar (fun b => if Bool.eqb (b a) (b b0) then cexp (- (th / 2)) else cexp (th / 2))).
  reflexivity.
Qed.

(** Two bit-flips with phases around block-diagonal operations *)
Lemma BD_flip : forall f t a u1 v1 u2 v2 psi, a <> t -> indep t f ->
  CU [] (Mat 0%C u2 v2 0%C) a (BD f t (CU [] (Mat 0%C u1 v1 0%C) a psi)) =
  BD (fun b => mscale (if b a then (v2 * u1)%C else (u2 * v1)%C) (f (upd b a (negb (b a))))) t psi.
Proof.
  intros f t a u1 v1 u2 v2 psi Hat Hf; apply functional_extensionality; intro b.
  rewrite CU_def. unfold BD. rewrite !CU_def. simpl.
  rewrite !(upd_other _ t _ a) by congruence. rewrite !(upd_other _ a _ t) by congruence.
  rewrite !upd_same. simpl.
  assert (Hc2 : forall v v' w0, upd (upd (upd b a v) t w0) a v' = upd (upd b a v') t w0).
  { intros. rewrite (upd_comm (upd b a v) t a) by congruence. rewrite upd_upd. reflexivity. }
  destruct (b a) eqn:E; simpl; rewrite !Hc2.
  all: assert (Hb : forall w0, upd (upd b a (b a)) t w0 = upd b t w0) by (intro; rewrite upd_id; reflexivity).
  all: rewrite E in Hb.
  all: rewrite !Hb.
  all: destruct (b t); simpl; ring.
Qed.

(** PhasedX of half a turn is such a flip. *)
Lemma PX_pi : forall p, QPhasedXM (pim 1) p = Mat 0%C (- (Ci * cexp (- p)))%C (- (Ci * cexp p))%C 0%C.
Proof.
  intro p. rewrite PX_PX2. unfold PX2.
  replace (pim 1 / 2) with (PI / 2) by (unfold pim; field).
  assert (E : cexp (- (PI / 2)) = (- Ci)%C).
  { rewrite <- cexp_conj, cexp_PI2. apply C_eq; cunfold; ring. }
  rewrite E, cexp_PI2.
  apply mat_eq; simpl; [ring| | |ring].
  - transitivity (((1 + 1) * half) * (- (Ci * cexp (- p))))%C; [ring | rewrite half2; ring].
  - transitivity (((1 + 1) * half) * (- (Ci * cexp p)))%C; [ring | rewrite half2; ring].
Qed.

(** ** Single-qubit decompositions *)

Lemma inv_sqrt2_w : RtoC (/ sqrt 2) = (half * (wp 2 + wp 14))%C.
Proof.
  rewrite <- !wp_cexp.
  replace (INR 14 * (PI / 8)) with (- (PI / 4) + 2 * PI) by (simpl; field).
  replace (INR 2 * (PI / 8)) with (PI / 4) by (simpl; field).
  rewrite cexp_add, cexp_2PI. unfold half. apply C_eq; cunfold; rewrite ?cos_neg, ?sin_neg, ?cos_PI4'; field;
  apply Rgt_not_eq, sqrt2_pos.
Qed.
Lemma MH_w : MH = mscale half (Mat (wp 2 + wp 14)%C (wp 2 + wp 14)%C (wp 2 + wp 14)%C (- (wp 2 + wp 14))%C).
Proof.
  unfold MH. replace (RtoC (- / sqrt 2)) with (- RtoC (/ sqrt 2))%C by (apply C_eq; cunfold; ring).
  rewrite inv_sqrt2_w. apply mat_eq; simpl; ring.
Qed.
Lemma MV_w : MV = mscale half (Mat (1 + wp 4)%C (1 - wp 4)%C (1 - wp 4)%C (1 + wp 4)%C).
Proof. rewrite <- Ci_w. unfold MV, half; mauto; field. Qed.
Lemma MVdg_w : mdag MV = mscale half (Mat (1 - wp 4)%C (1 + wp 4)%C (1 + wp 4)%C (1 - wp 4)%C).
Proof. rewrite <- Ci_w. unfold MV, half; mauto; field. Qed.
Lemma MY_w : MY = Mat 0%C (- wp 4)%C (wp 4) 0%C.
Proof. rewrite <- Ci_w; reflexivity. Qed.
Lemma MS_w : MS = Mat 1%C 0%C 0%C (wp 4).
Proof. rewrite <- Ci_w; reflexivity. Qed.
Lemma MT_w : MT = Mat 1%C 0%C 0%C (wp 2).
Proof. unfold MT. wexp. reflexivity. Qed.
Lemma MSdg_w : mdag MS = Mat 1%C 0%C 0%C (- wp 4)%C.
Proof. rewrite <- Ci_w. unfold MS; mauto; ring. Qed.
Lemma MTdg_w : mdag MT = Mat 1%C 0%C 0%C (wp 14).
Proof. unfold MT; apply mat_eq; simpl; rewrite ?Cconj_0, ?Cconj_1, ?cexp_conj; try reflexivity. wexp; reflexivity. Qed.

Lemma mscale_eq : forall k l A B, k = l -> A = B -> mscale k A = mscale l B.
Proof. intros; subst; reflexivity. Qed.

Ltac q1 :=
  rewrite ?PX_PX2, ?MH_w, ?MVdg_w, ?MV_w, ?MY_w, ?MSdg_w, ?MS_w, ?MTdg_w, ?MT_w;
  unfold PX2, QRzM, MX, MZ;
  repeat rewrite ?mscale_l, ?mscale_r, ?mscale_mscale; wexp;
  rewrite ?Ci_w; apply mat_eq; cbn [mscale mmul m00 m01 m10 m11 mI];
  try (cbn [wp]; ring [w8]).

Lemma h_mat : mmul (QRzM (pim 1)) (QPhasedXM (pim (/ 2)) (pim (- / 2))) = mscale (cexp (- (PI / 2))) MH.
Proof. q1. Qed.
Lemma x_mat : QPhasedXM (pim 1) (pim 0) = mscale (cexp (- (PI / 2))) MX.
Proof. rewrite PX_pi. q1. Qed.
Lemma y_mat : QPhasedXM (pim 1) (pim (/ 2)) = mscale (cexp (- (PI / 2))) MY.
Proof. rewrite PX_pi. q1. Qed.
Lemma z_mat : QRzM (pim 1) = mscale (cexp (- (PI / 2))) MZ.
Proof. q1. Qed.
Lemma s_mat : QRzM (pim (/ 2)) = mscale (cexp (- (PI / 4))) MS.
Proof. q1. Qed.
Lemma sdg_mat : QRzM (pim (- / 2)) = mscale (cexp (PI / 4)) (mdag MS).
Proof. q1. Qed.
Lemma t_mat : QRzM (pim (/ 4)) = mscale (cexp (- (PI / 8))) MT.
Proof. q1. Qed.
Lemma tdg_mat : QRzM (pim (- / 4)) = mscale (cexp (PI / 8)) (mdag MT).
Proof. q1. Qed.
Lemma v_mat : QPhasedXM (pim (/ 2)) (pim 0) = mscale (cexp (- (PI / 4))) MV.
Proof. q1. Qed.
Lemma vdg_mat : QPhasedXM (pim (- / 2)) (pim 0) = mscale (cexp (PI / 4)) (mdag MV).
Proof. q1. Qed.

Lemma rz_mat : forall a, QRzM (to_radians a) = MRz a.
Proof.
  intro a. unfold QRzM, MRz, to_radians, pim. f_equal; f_equal; field.
Qed.
Lemma PX_mat : forall t p, QPhasedXM t p =
  Mat (cos (t / 2), 0) ((0, - sin (t / 2))%R * cexp (- p))%C ((0, - sin (t / 2))%R * cexp p)%C (cos (t / 2), 0).
Proof.
  intros t p. rewrite PX_PX2. unfold PX2, half.
  assert (E1 : (cexp (t / 2) + cexp (- (t / 2)))%C = (2 * cos (t / 2), 0)).
  { apply C_eq; cunfold; rewrite ?cos_neg, ?sin_neg; ring. }
  assert (E2 : (cexp (- (t / 2)) - cexp (t / 2))%C = (0, - (2 * sin (t / 2)))).
  { apply C_eq; cunfold; rewrite ?cos_neg, ?sin_neg; ring. }
  rewrite E1, E2. apply mat_eq; simpl; apply C_eq; cunfold; field.
Qed.
Lemma rx_mat : forall a, QPhasedXM (to_radians a) (pim 0) = MRx a.
Proof.
  intro a. rewrite PX_mat. unfold MRx, to_radians, pim.
  replace (a * (1 * PI) / 2) with (PI * a / 2) by field.
  replace (- (0 * PI)) with 0 by ring. replace (0 * PI) with 0 by ring. rewrite cexp_0.
  apply mat_eq; simpl; try reflexivity; ring.
Qed.
Lemma ry_mat : forall a, QPhasedXM (to_radians a) (pim (/ 2)) = MRy a.
Proof.
  intro a. rewrite PX_mat. unfold MRy, to_radians, pim.
  replace (a * (1 * PI) / 2) with (PI * a / 2) by field.
  replace (/ 2 * PI) with (PI / 2) by field.
  rewrite <- cexp_conj, cexp_PI2.
  apply mat_eq; simpl; try reflexivity; apply C_eq; cunfold; ring.
Qed.

(** ** Two-qubit decompositions *)

Lemma Sc_CU_BD : forall k K M t psi,
  Sc k (CU K M t psi) = BD (fun b => mscale k (if all1 K b then M else mI)) t psi.
Proof.
  intros. rewrite CU_BD. apply functional_extensionality; intro b. unfold Sc, BD.
  destruct (all1 K b); destruct (b t); simpl; ring.
Qed.

Lemma if_b1 : forall a (b : basis), all1 [a] b = b a.
Proof. intros; apply all1_1. Qed.

Ltac indep_tac :=
  let b := fresh "b" in let v := fresh "v" in intros b v; cbv beta;
  repeat first [ rewrite upd_same | rewrite upd_other by congruence ]; try reflexivity.

Ltac comp_bd := repeat (rewrite BD_comp by (solve [indep_tac])).

Lemma cz_ok : forall a b psi, a <> b ->
  qrun (build_cz a b) psi = Sc (cexp (PI / 4)) (op_sem CZ [a; b] 0 psi).
Proof.
  intros a b psi Hab. unfold build_cz, zz_max, qrun; cbn [app fold_left].
  rewrite (ZZ_BD a b) by assumption. cbn [qgate_sem]. rewrite (Rz_BD a b). rewrite CU0_BD.
  comp_bd. unfold op_sem; cbn [removelast last op_mat]. rewrite Sc_CU_BD. apply BD_ext. intro bs.
  rewrite if_b1. destruct (bs a); q1.
Qed.

Lemma half2' : forall x, (half * ((1 + 1) * x))%C = x.
Proof. intro x. transitivity (((1 + 1) * half) * x)%C; [ring | rewrite half2; ring]. Qed.
Lemma mscale_half : forall A B, A = mscale (1 + 1)%C B -> mscale half A = B.
Proof. intros A B ->. rewrite mscale_mscale. apply mat_eq; simpl;
  match goal with |- (_ * ?x)%C = _ => transitivity (half * ((1 + 1) * x))%C; [ring | apply half2'] end. Qed.

Lemma mscale_comm_half : forall k M, mscale k (mscale half M) = mscale half (mscale k M).
Proof. intros; apply mat_eq; simpl; ring. Qed.

Ltac pull_half :=
  rewrite ?PX_PX2;
  repeat first [ rewrite mscale_l | rewrite mscale_r
    | match goal with |- context [mscale ?k (mscale half ?M)] =>
        lazymatch k with half => fail | _ => rewrite (mscale_comm_half k M) end end ];
  repeat apply mscale_half.
Ltac wmat :=
  unfold PX2, QRzM, MX, MZ; rewrite ?MY_w; rewrite ?mscale_mscale; wexp;
  rewrite ?Ci_w; apply mat_eq; cbn [mscale mmul m00 m01 m10 m11 mI];
  cbn [wp]; ring [w8].

Lemma cx_ok : forall c t psi, c <> t ->
  qrun (build_cx c t) psi = Sc (cexp (PI / 4)) (op_sem CX [c; t] 0 psi).
Proof.
  intros a b psi Hab. unfold build_cx, zz_max, qrun; cbn [app fold_left].
  rewrite (ZZ_BD a b) by assumption. cbn [qgate_sem]. rewrite (Rz_BD a b). rewrite !CU0_BD.
  comp_bd. unfold op_sem; cbn [removelast last op_mat]. rewrite Sc_CU_BD. apply BD_ext. intro bs.
  rewrite if_b1. destruct (bs a); pull_half; wmat.
Qed.

Lemma cy_ok : forall a b psi, a <> b ->
  qrun (build_cy a b) psi = Sc (cexp (- (PI / 4))) (op_sem CY [a; b] 0 psi).
Proof.
  intros a b psi Hab. unfold build_cy, zz_max, qrun; cbn [app fold_left].
  rewrite (ZZ_BD a b) by assumption. cbn [qgate_sem].
  rewrite (CU0_BD (QPhasedXM (pim (- / 2)) (pim 1)) b).
  comp_bd. rewrite !PX_pi.
  rewrite BD_flip; [| assumption | indep_tac].
  rewrite (Rz_BD a b). rewrite !CU0_BD.
  comp_bd. unfold op_sem; cbn [removelast last op_mat]. rewrite Sc_CU_BD. apply BD_ext. intro bs.
  rewrite if_b1. rewrite !upd_same. destruct (bs a); cbn [negb]; pull_half; wmat.
Qed.

Lemma crz_ok : forall a b l psi, a <> b ->
  qrun (build_crz a b (to_radians l)) psi = op_sem CRz [a; b] l psi.
Proof.
  intros a b l psi Hab. unfold build_crz, qrun; cbn [app fold_left].
  rewrite (ZZ_BD a b) by assumption. cbn [qgate_sem]. rewrite !CU0_BD.
  comp_bd. unfold op_sem; cbn [removelast last op_mat]. rewrite CU_BD. apply BD_ext. intro bs.
  rewrite if_b1. rewrite <- rz_mat. set (m := to_radians l).
  destruct (bs a); apply mat_eq; simpl; try ring;
  match goal with |- (?x * ?y + _)%C = ?z => transitivity (x * y)%C; [ring | rewrite <- cexp_add]
   | |- (_ + ?x * ?y)%C = ?z => transitivity (x * y)%C; [ring | rewrite <- cexp_add] end;
  try (rewrite <- cexp_0); f_equal; field.
Qed.

(** ** Toffoli *)

Lemma if_b2 : forall a c (b : basis), all1 [a; c] b = andb (b a) (b c).
Proof. intros; unfold all1; simpl. rewrite andb_true_r; reflexivity. Qed.

Lemma toffoli_ok : forall a b c psi, a <> b -> a <> c -> b <> c ->
  qrun (build_toffoli a b c) psi = Sc (cexp (7 * PI / 8)) (op_sem Toffoli [a; b; c] 0 psi).
Proof.
  intros a b c psi Hab Hac Hbc. unfold build_toffoli, zz_max, qrun; cbn [app fold_left].
  rewrite !(ZZ_BD a c), !(ZZ_BD b c) by assumption. rewrite (ZZ_other_BD a b c). cbn [qgate_sem].
  rewrite !(CU0_BD _ c).
  comp_bd. rewrite (PX_pi (pim (/ 4))), (PX_pi (pim (- / 4))).
  rewrite BD_flip; [| assumption | indep_tac].
  rewrite (Rz_BD a c), (Rz_BD b c). comp_bd.
  unfold op_sem; cbn [removelast last op_mat]. rewrite Sc_CU_BD. apply BD_ext. intro bs.
  rewrite if_b2. rewrite !upd_same, !(upd_other _ a _ b) by congruence.
  rewrite (PX_pi (pim (- / 2))).
  destruct (bs a), (bs b); cbn [negb eqb andb]; pull_half; wmat.
Qed.
