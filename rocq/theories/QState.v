(** States, 2x2 matrices and (multi-)controlled one-qubit operators on named qubits.
    Mathematical vocabulary only: nothing here models code.

    Qubits are named by natural numbers. A computational basis state is a function
    [nat -> bool]; a (not necessarily normalised) state vector gives each basis state a
    complex amplitude. There are infinitely many qubits; an operator touches finitely many. *)
From Coq Require Import Reals List Bool Arith Lia FunctionalExtensionality.
From Verif Require Import QComplex.
Import ListNotations.
Open Scope C_scope.

Definition basis : Type := nat -> bool.
Definition state : Type := basis -> C.

Definition upd (b : basis) (q : nat) (v : bool) : basis :=
  fun k => if Nat.eqb k q then v else b k.

Record mat : Type := Mat { m00 : C; m01 : C; m10 : C; m11 : C }.

Definition mget (M : mat) (i j : bool) : C :=
  match i, j with
  | false, false => m00 M | false, true => m01 M
  | true, false => m10 M | true, true => m11 M
  end.

Definition mI : mat := Mat 1 0 0 1.
Definition mmul (A B : mat) : mat :=
  Mat (m00 A * m00 B + m01 A * m10 B) (m00 A * m01 B + m01 A * m11 B)
      (m10 A * m00 B + m11 A * m10 B) (m10 A * m01 B + m11 A * m11 B).
Definition mscale (k : C) (A : mat) : mat := Mat (k * m00 A) (k * m01 A) (k * m10 A) (k * m11 A).
(** Conjugate transpose. *)
Definition mdag (A : mat) : mat :=
  Mat (Cconj (m00 A)) (Cconj (m10 A)) (Cconj (m01 A)) (Cconj (m11 A)).
Definition unitary (A : mat) : Prop := mmul A (mdag A) = mI /\ mmul (mdag A) A = mI.

(** All control qubits of [cs] are 1 in [b]. *)
Definition all1 (cs : list nat) (b : basis) : bool := forallb b cs.

(** The one-qubit matrix [M] applied to qubit [t] when every qubit of [cs] is 1. *)
Definition CU (cs : list nat) (M : mat) (t : nat) (psi : state) : state :=
  fun b =>
    if all1 cs b
    then mget M (b t) false * psi (upd b t false) + mget M (b t) true * psi (upd b t true)
    else psi b.

(** Multiplication of the whole state by a scalar. *)
Definition Sc (k : C) (psi : state) : state := fun b => k * psi b.

(** ** Lemmas *)

Lemma mat_eq : forall A B, m00 A = m00 B -> m01 A = m01 B -> m10 A = m10 B -> m11 A = m11 B -> A = B.
Proof. intros [] []; simpl; intros; subst; reflexivity. Qed.

Lemma mmul_I_l : forall A, mmul mI A = A.
Proof. intros []; apply mat_eq; simpl; ring. Qed.
Lemma mmul_I_r : forall A, mmul A mI = A.
Proof. intros []; apply mat_eq; simpl; ring. Qed.
Lemma mmul_assoc : forall A B D, mmul A (mmul B D) = mmul (mmul A B) D.
Proof. intros [] [] []; apply mat_eq; simpl; ring. Qed.
Lemma mdag_mmul : forall A B, mdag (mmul A B) = mmul (mdag B) (mdag A).
Proof.
  intros [] []; apply mat_eq; simpl; rewrite Cconj_add, !Cconj_mul; ring.
Qed.
Lemma mdag_invol : forall A, mdag (mdag A) = A.
Proof. intros []; apply mat_eq; simpl; apply Cconj_invol. Qed.
Lemma mdag_I : mdag mI = mI.
Proof. apply mat_eq; simpl; rewrite ?Cconj_0, ?Cconj_1; reflexivity. Qed.
Lemma unitary_mdag : forall A, unitary A -> unitary (mdag A).
Proof. intros A [H1 H2]; split; rewrite mdag_invol; assumption. Qed.

Lemma upd_same : forall b q v, upd b q v q = v.
Proof. intros; unfold upd; rewrite Nat.eqb_refl; reflexivity. Qed.
Lemma upd_other : forall b q v k, k <> q -> upd b q v k = b k.
Proof. intros; unfold upd; destruct (Nat.eqb_spec k q); [contradiction | reflexivity]. Qed.
Lemma upd_upd : forall b q v w, upd (upd b q v) q w = upd b q w.
Proof.
  intros; apply functional_extensionality; intro k; unfold upd.
  destruct (Nat.eqb k q); reflexivity.
Qed.
Lemma upd_id : forall b q, upd b q (b q) = b.
Proof.
  intros; apply functional_extensionality; intro k; unfold upd.
  destruct (Nat.eqb_spec k q); subst; reflexivity.
Qed.
Lemma upd_comm : forall b q r v w, q <> r -> upd (upd b q v) r w = upd (upd b r w) q v.
Proof.
  intros; apply functional_extensionality; intro k; unfold upd.
  destruct (Nat.eqb_spec k q), (Nat.eqb_spec k r); subst; try contradiction; reflexivity.
Qed.

Lemma all1_upd : forall cs b t v, ~ In t cs -> all1 cs (upd b t v) = all1 cs b.
Proof.
  unfold all1; induction cs as [|c cs IH]; intros b t v H; simpl; [reflexivity|].
  rewrite IH by (intro; apply H; right; assumption).
  rewrite upd_other by (intro; apply H; left; congruence). reflexivity.
Qed.
Lemma all1_app : forall cs ds b, all1 (cs ++ ds) b = all1 cs b && all1 ds b.
Proof. intros; unfold all1; apply forallb_app. Qed.
Lemma all1_cons : forall c cs b, all1 (c :: cs) b = b c && all1 cs b.
Proof. reflexivity. Qed.
Lemma all1_nil : forall b, all1 [] b = true.
Proof. reflexivity. Qed.

(** Controlled by the truth value of [all1 cs]: [A] if it holds, [B] otherwise. *)
Definition CU2 (cs : list nat) (A B : mat) (t : nat) (psi : state) : state :=
  fun b =>
    let M := if all1 cs b then A else B in
    mget M (b t) false * psi (upd b t false) + mget M (b t) true * psi (upd b t true).

Lemma CU_CU2 : forall cs M t psi, CU cs M t psi = CU2 cs M mI t psi.
Proof.
  intros; apply functional_extensionality; intro b; unfold CU, CU2.
  destruct (all1 cs b); [reflexivity|].
  rewrite <- (upd_id b t) at 1. destruct (b t); simpl; ring.
Qed.
Lemma CU_nil_CU2 : forall cs M t psi, CU [] M t psi = CU2 cs M M t psi.
Proof.
  intros; apply functional_extensionality; intro b; unfold CU, CU2; simpl.
  destruct (all1 cs b); reflexivity.
Qed.
Lemma CU2_comp : forall cs A B A' B' t psi, ~ In t cs ->
  CU2 cs A B t (CU2 cs A' B' t psi) = CU2 cs (mmul A A') (mmul B B') t psi.
Proof.
  intros cs A B A' B' t psi Ht; apply functional_extensionality; intro b; unfold CU2.
  rewrite !all1_upd by assumption. rewrite !upd_upd, !upd_same.
  destruct (all1 cs b); destruct (b t); simpl; ring.
Qed.
Lemma CU_comp : forall cs A B t psi, ~ In t cs ->
  CU cs A t (CU cs B t psi) = CU cs (mmul A B) t psi.
Proof.
  intros; rewrite !CU_CU2, CU2_comp by assumption. rewrite mmul_I_l; reflexivity.
Qed.
Lemma CU_I : forall cs t psi, CU cs mI t psi = psi.
Proof.
  intros; apply functional_extensionality; intro b; unfold CU.
  destruct (all1 cs b); [|reflexivity].
  rewrite <- (upd_id b t) at 5. destruct (b t); simpl; ring.
Qed.
Lemma CU_perm_ctrl : forall cs ds M t psi, (forall b, all1 cs b = all1 ds b) ->
  CU cs M t psi = CU ds M t psi.
Proof.
  intros; apply functional_extensionality; intro b; unfold CU. rewrite H; reflexivity.
Qed.

Lemma CU_unitary_inv : forall cs M t psi, ~ In t cs -> unitary M ->
  CU cs (mdag M) t (CU cs M t psi) = psi /\ CU cs M t (CU cs (mdag M) t psi) = psi.
Proof.
  intros cs M t psi Ht [H1 H2]; split; rewrite CU_comp by assumption;
  [rewrite H2 | rewrite H1]; apply CU_I.
Qed.

Lemma Sc_CU : forall k cs M t psi, CU cs M t (Sc k psi) = Sc k (CU cs M t psi).
Proof.
  intros; apply functional_extensionality; intro b; unfold CU, Sc.
  destruct (all1 cs b); ring.
Qed.
Lemma Sc_Sc : forall k l psi, Sc k (Sc l psi) = Sc (k * l) psi.
Proof. intros; apply functional_extensionality; intro b; unfold Sc; ring. Qed.
Lemma Sc_1 : forall psi, Sc 1 psi = psi.
Proof. intros; apply functional_extensionality; intro b; unfold Sc; ring. Qed.
Lemma CU_nil_scale : forall k M t psi, CU [] (mscale k M) t psi = Sc k (CU [] M t psi).
Proof.
  intros; apply functional_extensionality; intro b; unfold CU, Sc; simpl.
  destruct (b t); simpl; ring.
Qed.

(** Operators on disjoint qubits commute. *)
Lemma CU_comm_disj : forall cs A t ds B u psi,
  t <> u -> ~ In t ds -> ~ In u cs ->
  CU cs A t (CU ds B u psi) = CU ds B u (CU cs A t psi).
Proof.
  intros cs A t ds B u psi Htu Htd Huc.
  apply functional_extensionality; intro b; unfold CU.
  rewrite !all1_upd by assumption.
  rewrite !(upd_other _ t) by congruence. rewrite !(upd_other _ u) by congruence.
  rewrite !(upd_comm b u t) by congruence.
  destruct (all1 cs b), (all1 ds b); try ring.
Qed.
