(** Matrix identities between the gates of [GateSpec]. *)
From Coq Require Import Reals Lra List Bool Arith FunctionalExtensionality.
From Verif Require Import QComplex QState OpsModel GateSpec.
Import ListNotations.
Open Scope R_scope.

Ltac cunfold := unfold cexp, RtoC, Cconj, Csub, Cadd, Cmul, Copp, C0, C1, Ci in *; simpl.
Ltac mauto := apply mat_eq; simpl; apply C_eq; cunfold.

Lemma sqrt2_sq : sqrt 2 * sqrt 2 = 2.
Proof. apply sqrt_sqrt; lra. Qed.
Lemma inv_sqrt2_sq : / sqrt 2 * / sqrt 2 = / 2.
Proof. rewrite <- Rinv_mult. rewrite sqrt2_sq; reflexivity. Qed.
Lemma sqrt2_pos : 0 < sqrt 2.
Proof. apply sqrt_lt_R0; lra. Qed.

Lemma cos_PI4' : cos (PI / 4) = / sqrt 2.
Proof. rewrite cos_PI4. unfold Rdiv; ring. Qed.
Lemma sin_PI4' : sin (PI / 4) = / sqrt 2.
Proof. rewrite sin_PI4. unfold Rdiv; ring. Qed.

Lemma sin2_cos2' : forall x, sin x * sin x + cos x * cos x = 1.
Proof. intro x; generalize (sin2_cos2 x); unfold Rsqr; auto. Qed.
Lemma cos2_sin2' : forall x, cos x * cos x + sin x * sin x = 1.
Proof. intro x; generalize (sin2_cos2 x); unfold Rsqr; lra. Qed.

Lemma MX_sq : mmul MX MX = mI.
Proof. mauto; ring. Qed.
Lemma MX_dag : mdag MX = MX.
Proof. mauto; ring. Qed.
Lemma MH_dag : mdag MH = MH.
Proof. mauto; ring. Qed.
Lemma MY_dag : mdag MY = MY.
Proof. mauto; ring. Qed.
Lemma MZ_dag : mdag MZ = MZ.
Proof. mauto; ring. Qed.
Lemma MH_sq : mmul MH MH = mI.
Proof. mauto; generalize inv_sqrt2_sq; intro; lra. Qed.

Lemma MV_sq : mmul MV MV = MX.
Proof. mauto; lra. Qed.
Lemma MV_unit1 : mmul MV (mdag MV) = mI.
Proof. mauto; lra. Qed.
Lemma MV_unit2 : mmul (mdag MV) MV = mI.
Proof. mauto; lra. Qed.
Lemma MS_unit1 : mmul MS (mdag MS) = mI.
Proof. mauto; lra. Qed.
Lemma MS_unit2 : mmul (mdag MS) MS = mI.
Proof. mauto; lra. Qed.

Lemma MRz_dag : forall a, mdag (MRz a) = MRz (- a).
Proof.
  intro a; apply mat_eq; simpl; rewrite ?Cconj_0; try reflexivity; rewrite cexp_conj; f_equal; field.
Qed.
Lemma MRx_dag : forall a, mdag (MRx a) = MRx (- a).
Proof.
  intro a; unfold MRx; replace (PI * - a / 2) with (- (PI * a / 2)) by field;
  rewrite cos_neg, sin_neg; mauto; ring.
Qed.
Lemma MRy_dag : forall a, mdag (MRy a) = MRy (- a).
Proof.
  intro a; unfold MRy; replace (PI * - a / 2) with (- (PI * a / 2)) by field;
  rewrite cos_neg, sin_neg; mauto; ring.
Qed.
Lemma MRz_0 : MRz 0 = mI.
Proof.
  unfold MRz; apply mat_eq; simpl; try reflexivity.
  - replace (- (PI * 0 / 2)) with 0 by field; apply cexp_0.
  - replace (PI * 0 / 2) with 0 by field; apply cexp_0.
Qed.
Lemma MRz_add : forall a b, mmul (MRz a) (MRz b) = MRz (a + b).
Proof.
  intros; apply mat_eq; simpl; try ring.
  - transitivity (cexp (- (PI * a / 2)) * cexp (- (PI * b / 2)))%C; [ring|].
    rewrite <- cexp_add; f_equal; field.
  - transitivity (cexp (PI * a / 2) * cexp (PI * b / 2))%C; [ring|].
    rewrite <- cexp_add; f_equal; field.
Qed.
Lemma MX_Rz_MX : forall a, mmul MX (mmul (MRz a) MX) = MRz (- a).
Proof.
  intros; apply mat_eq; simpl; try ring.
  - transitivity (cexp (PI * a / 2)); [ring|]. f_equal; field.
  - transitivity (cexp (- (PI * a / 2))); [ring|]. f_equal; field.
Qed.

(** H = X * Ry(1/2), tket_op_modify.rs:114. *)
Lemma H_decomp : mmul MX (MRy (/ 2)) = MH.
Proof.
  unfold MRy. replace (PI * / 2 / 2) with (PI / 4) by field.
  rewrite cos_PI4', sin_PI4'. mauto; ring.
Qed.
(** Rx(a) = H Rz(a) H. *)
Lemma Rx_decomp : forall a, mmul MH (mmul (MRz a) MH) = MRx a.
Proof.
  intro a; unfold MRz, MRx, MH; generalize inv_sqrt2_sq; intro Hs.
  mauto; rewrite ?cos_neg, ?sin_neg; set (r := / sqrt 2) in *; set (c := cos _); set (s := sin _).
  all: first [ ring
             | transitivity ((r * r) * (c + c)); [ring | rewrite Hs; field]
             | transitivity ((r * r) * (s + s)); [ring | rewrite Hs; field]
             | transitivity (- ((r * r) * (s + s))); [ring | rewrite Hs; field] ].
Qed.
(** Ry(a) = S Rx(a) Sdg. *)
Lemma Ry_decomp : forall a, mmul MS (mmul (MRx a) (mdag MS)) = MRy a.
Proof. intro a; mauto; ring. Qed.
Lemma Y_decomp : mmul MS (mmul MX (mdag MS)) = MY.
Proof. mauto; ring. Qed.

Lemma cexp_scale_Rz : forall a, mscale (cexp (PI * a)) (MRz (a * 2)) = Mat 1%C 0%C 0%C (cexp (PI * (a * 2))).
Proof.
  intro a; apply mat_eq; simpl; try ring.
  - rewrite <- cexp_add. replace (PI * a + - (PI * (a * 2) / 2)) with 0 by field. apply cexp_0.
  - rewrite <- cexp_add. f_equal; field.
Qed.
Lemma S_decomp : mscale (cexp (PI * (/ 4))) (MRz (/ 4 * 2)) = MS.
Proof.
  rewrite cexp_scale_Rz. unfold MS. f_equal.
  replace (PI * (/ 4 * 2)) with (PI / 2) by field. apply cexp_PI2.
Qed.
Lemma T_decomp : mscale (cexp (PI * (/ 8))) (MRz (/ 8 * 2)) = MT.
Proof.
  rewrite cexp_scale_Rz. unfold MT. f_equal. f_equal; field.
Qed.
Lemma V_decomp : mscale (cexp (PI * (/ 4))) (MRx (/ 4 * 2)) = MV.
Proof.
  unfold MRx, MV. replace (PI * (/ 4)) with (PI / 4) by field.
  replace (PI * (/ 4 * 2) / 2) with (PI / 4) by field.
  unfold cexp; rewrite cos_PI4', sin_PI4'.
  generalize inv_sqrt2_sq; intro Hs. mauto; set (r := / sqrt 2) in *; lra.
Qed.
Lemma mdag_mscale : forall k M, mdag (mscale k M) = mscale (Cconj k) (mdag M).
Proof. intros k []; apply mat_eq; simpl; apply Cconj_mul. Qed.

Lemma Sdg_decomp : mscale (cexp (PI * (- / 4))) (MRz (- / 4 * 2)) = mdag MS.
Proof.
  rewrite <- S_decomp, mdag_mscale, MRz_dag, cexp_conj. f_equal; [f_equal; field | f_equal; field].
Qed.
Lemma Tdg_decomp : mscale (cexp (PI * (- / 8))) (MRz (- / 8 * 2)) = mdag MT.
Proof.
  rewrite <- T_decomp, mdag_mscale, MRz_dag, cexp_conj. f_equal; [f_equal; field | f_equal; field].
Qed.
Lemma Vdg_decomp : mscale (cexp (PI * (- / 4))) (MRx (- / 4 * 2)) = mdag MV.
Proof.
  rewrite <- V_decomp, mdag_mscale, MRx_dag, cexp_conj. f_equal; [f_equal; field | f_equal; field].
Qed.

Lemma unitary_MRz : forall a, unitary (MRz a).
Proof.
  intro a; split; rewrite MRz_dag, MRz_add.
  - replace (a + - a) with 0 by ring; apply MRz_0.
  - replace (- a + a) with 0 by ring; apply MRz_0.
Qed.
Lemma unitary_MX : unitary MX.
Proof. split; rewrite MX_dag; apply MX_sq. Qed.
Lemma unitary_MY : unitary MY.
Proof. split; rewrite MY_dag; mauto; ring. Qed.
Lemma unitary_MZ : unitary MZ.
Proof. split; rewrite MZ_dag; mauto; ring. Qed.
Lemma unitary_MH : unitary MH.
Proof. split; rewrite MH_dag; apply MH_sq. Qed.
Lemma unitary_MS : unitary MS.
Proof. split; [apply MS_unit1 | apply MS_unit2]. Qed.
Lemma unitary_MT : unitary MT.
Proof.
  split; apply mat_eq; simpl; rewrite ?Cconj_0, ?Cconj_1, ?cexp_conj; try ring.
  - transitivity (cexp (PI / 4) * cexp (- (PI / 4)))%C; [ring | apply cexp_neg].
  - transitivity (cexp (PI / 4) * cexp (- (PI / 4)))%C; [ring | apply cexp_neg].
Qed.
Lemma unitary_MV : unitary MV.
Proof. split; [apply MV_unit1 | apply MV_unit2]. Qed.
Lemma unitary_mmul : forall A B, unitary A -> unitary B -> unitary (mmul A B).
Proof.
  intros A B [A1 A2] [B1 B2]; split; rewrite mdag_mmul, mmul_assoc.
  - rewrite <- (mmul_assoc A B), B1, mmul_I_r; exact A1.
  - rewrite <- (mmul_assoc (mdag B) (mdag A)), A2, mmul_I_r; exact B2.
Qed.
Lemma unitary_MRx : forall a, unitary (MRx a).
Proof.
  intro a; rewrite <- Rx_decomp. repeat apply unitary_mmul; auto using unitary_MH, unitary_MRz.
Qed.
Lemma unitary_MRy : forall a, unitary (MRy a).
Proof.
  intro a; rewrite <- Ry_decomp.
  repeat apply unitary_mmul; auto using unitary_MS, unitary_MRx, unitary_mdag.
Qed.
Lemma unitary_I : unitary mI.
Proof. split; rewrite mdag_I; apply mmul_I_l. Qed.

Lemma unitary_op_mat : forall op a, unitary (op_mat op a).
Proof.
  destruct op; intro a; simpl;
  auto using unitary_MX, unitary_MY, unitary_MZ, unitary_MH, unitary_MS, unitary_MT, unitary_MV,
    unitary_MRx, unitary_MRy, unitary_MRz, unitary_I, unitary_mdag.
Qed.

Lemma run_app : forall g1 g2 psi, run (g1 ++ g2) psi = run g2 (run g1 psi).
Proof. intros; unfold run; apply fold_left_app. Qed.
Lemma run_cons : forall g gs psi, run (g :: gs) psi = run gs (gate_sem g psi).
Proof. reflexivity. Qed.
Lemma run_nil : forall psi, run [] psi = psi.
Proof. reflexivity. Qed.
