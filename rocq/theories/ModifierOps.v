(** Operator identities behind the controlled-gate synthesis. *)
From Coq Require Import Reals Lra Lia List Bool Arith FunctionalExtensionality.
From Verif Require Import QComplex QState OpsModel GateSpec GateFacts.
Import ListNotations.
Open Scope R_scope.

(** ** Operator identities *)

Lemma CU_MX : forall cs t psi b,
  CU cs MX t psi b = if all1 cs b then psi (upd b t (negb (b t))) else psi b.
Proof.
  intros; unfold CU; destruct (all1 cs b); [|reflexivity].
  destruct (b t); simpl; ring.
Qed.

Lemma basis_split : forall (b : basis) c t, c <> t -> exists b0 v w, b = upd (upd b0 c v) t w.
Proof.
  intros b c t H; exists b, (b c), (b t). rewrite upd_id. symmetry; apply upd_id.
Qed.

Ltac upd_norm c t :=
  repeat first
    [ rewrite upd_same
    | rewrite upd_upd
    | rewrite upd_other by congruence
    | rewrite (upd_comm _ t c) by congruence ].

Lemma all1_1 : forall c b, all1 [c] b = b c.
Proof. intros; unfold all1; simpl; apply andb_true_r. Qed.

Lemma CU_def : forall cs M t psi b, CU cs M t psi b =
    if all1 cs b
    then (mget M (b t) false * psi (upd b t false) + mget M (b t) true * psi (upd b t true))%C
    else psi b.
Proof. reflexivity. Qed.

Lemma barenco : forall K c t psi, c <> t -> ~ In c K -> ~ In t K ->
  CU K MV t (CU K MX c (CU [c] (mdag MV) t (CU K MX c (CU [c] MV t psi)))) =
  CU (K ++ [c]) MX t psi.
Proof.
  intros K c t psi Hct HcK HtK. apply functional_extensionality; intro b.
  destruct (basis_split b c t Hct) as [b0 [v [w ->]]].
  rewrite (CU_MX (K ++ [c])), (CU_def K MV), !CU_MX, !(CU_def [c] (mdag MV)), !CU_MX, !(CU_def [c] MV).
  rewrite !all1_app, !all1_1.
  rewrite !all1_upd by assumption.
  upd_norm c t.
  destruct (all1 K b0), v, w; simpl; upd_norm c t; simpl; upd_norm c t; try reflexivity;
    apply C_eq; cunfold; lra.
Qed.

Lemma toffoli_split : forall A B a t psi,
  a <> t -> ~ In a A -> ~ In t A -> ~ In a B -> ~ In t B ->
  CU (B ++ [a]) MX t (CU A MX a (CU (B ++ [a]) MX t (CU A MX a psi))) =
  CU (A ++ B) MX t psi.
Proof.
  intros A B a t psi Hat HaA HtA HaB HtB. apply functional_extensionality; intro b.
  destruct (basis_split b a t Hat) as [b0 [v [w ->]]].
  rewrite !CU_MX. rewrite !all1_app, !all1_1.
  rewrite !all1_upd by assumption.
  upd_norm a t.
  destruct (all1 A b0), (all1 B b0), v, w; simpl; upd_norm a t; simpl; upd_norm a t; reflexivity.
Qed.

Lemma crz_identity : forall K t a psi, ~ In t K ->
  CU K MX t (CU [] (MRz (- (a * / 2))) t (CU K MX t (CU [] (MRz (a * / 2)) t psi))) =
  CU K (MRz a) t psi.
Proof.
  intros K t a psi Ht.
  rewrite !(CU_nil_CU2 K), !CU_CU2, !CU2_comp by assumption.
  f_equal.
  - rewrite <- !mmul_assoc. rewrite (mmul_assoc _ MX), (mmul_assoc MX), MX_Rz_MX, MRz_add. f_equal; field.
  - rewrite ?mmul_I_r, ?mmul_I_l, ?mmul_I_r. rewrite MRz_add. replace (- (a * / 2) + a * / 2) with 0 by ring. apply MRz_0.
Qed.

Lemma conj_identity : forall K A B M t psi, ~ In t K -> mmul A B = mI ->
  CU [] A t (CU K M t (CU [] B t psi)) = CU K (mmul A (mmul M B)) t psi.
Proof.
  intros K A B M t psi Ht HAB.
  rewrite !(CU_nil_CU2 K), !CU_CU2, !CU2_comp by assumption.
  f_equal; rewrite ?mmul_assoc, ?mmul_I_r, ?mmul_I_l; auto.
Qed.

(** Controlled global phase. *)
Definition CPh (cs : list nat) (a : R) (psi : state) : state :=
  fun b => if all1 cs b then (cexp (PI * a) * psi b)%C else psi b.

Lemma CPh_nil : forall a psi, CPh [] a psi = Sc (cexp (PI * a)) psi.
Proof. reflexivity. Qed.

Lemma CPh_step : forall cs c a psi, ~ In c cs ->
  CU cs (MRz a) c (CPh cs (a * / 2) psi) = CPh (cs ++ [c]) a psi.
Proof.
  intros cs c a psi Hc; apply functional_extensionality; intro b.
  rewrite CU_def. unfold CPh. rewrite all1_app, all1_1, !all1_upd by assumption.
  destruct (all1 cs b); [|reflexivity]. simpl.
  destruct (b c) eqn:E; simpl.
  - assert (Hb : upd b c true = b) by (rewrite <- E; apply upd_id). rewrite Hb.
    transitivity ((cexp (PI * a / 2) * cexp (PI * (a * / 2))) * psi b)%C; [ring|].
    rewrite <- cexp_add. f_equal. f_equal. field.
  - assert (Hb : upd b c false = b) by (rewrite <- E; apply upd_id). rewrite Hb.
    transitivity ((cexp (PI * (a * / 2)) * cexp (- (PI * a / 2))) * psi b)%C; [ring|].
    rewrite <- cexp_add. replace (PI * (a * / 2) + - (PI * a / 2)) with 0 by field.
    rewrite cexp_0; ring.
Qed.

Lemma CPh_CU : forall cs M t a psi,
  CPh cs a (CU cs M t psi) = CU cs (mscale (cexp (PI * a)) M) t psi.
Proof.
  intros; apply functional_extensionality; intro b. unfold CPh; rewrite !CU_def.
  destruct (all1 cs b); [|reflexivity]. destruct (b t); simpl; ring.
Qed.

