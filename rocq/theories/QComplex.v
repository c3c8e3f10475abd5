(** Complex numbers over the standard library's reals, with a [ring] tactic.
    This is mathematical vocabulary only: nothing here models code. *)
From Coq Require Import Reals Lra Ring.
Open Scope R_scope.

Definition C : Type := (R * R)%type.

Declare Scope C_scope.
Delimit Scope C_scope with C.
Bind Scope C_scope with C.

Definition Cre (z : C) : R := fst z.
Definition Cim (z : C) : R := snd z.
Definition RtoC (x : R) : C := (x, 0).
Definition C0 : C := (0, 0).
Definition C1 : C := (1, 0).
Definition Ci : C := (0, 1).
Definition Cadd (x y : C) : C := (fst x + fst y, snd x + snd y).
Definition Cmul (x y : C) : C :=
  (fst x * fst y - snd x * snd y, fst x * snd y + snd x * fst y).
Definition Copp (x : C) : C := (- fst x, - snd x).
Definition Csub (x y : C) : C := Cadd x (Copp y).
Definition Cconj (x : C) : C := (fst x, - snd x).

Notation "0" := C0 : C_scope.
Notation "1" := C1 : C_scope.
Infix "+" := Cadd : C_scope.
Infix "*" := Cmul : C_scope.
Infix "-" := Csub : C_scope.
Notation "- x" := (Copp x) : C_scope.

Lemma C_eq : forall x y : C, fst x = fst y -> snd x = snd y -> x = y.
Proof. intros [a b] [c d]; simpl; intros; subst; reflexivity. Qed.

Lemma C_ring_theory : ring_theory C0 C1 Cadd Cmul Csub Copp (@eq C).
Proof.
  constructor; intros; apply C_eq; unfold Csub, Cadd, Cmul, Copp, C0, C1; simpl; ring.
Qed.

Add Ring C_ring : C_ring_theory.

(** [cexp t] is e^{i t}. *)
Definition cexp (t : R) : C := (cos t, sin t).

Lemma cexp_add : forall a b, cexp (a + b) = (cexp a * cexp b)%C.
Proof.
  intros; apply C_eq; unfold cexp, Cmul; simpl.
  - rewrite cos_plus; ring.
  - rewrite sin_plus; ring.
Qed.

Lemma cexp_0 : cexp 0 = 1%C.
Proof. unfold cexp; rewrite cos_0, sin_0; reflexivity. Qed.

Lemma cexp_neg : forall a, (cexp a * cexp (- a))%C = 1%C.
Proof.
  intros; rewrite <- cexp_add; replace (a + - a) with 0 by ring; apply cexp_0.
Qed.

Lemma cexp_neg' : forall a, (cexp (- a) * cexp a)%C = 1%C.
Proof.
  intros; rewrite <- cexp_add; replace (- a + a) with 0 by ring; apply cexp_0.
Qed.

Lemma cexp_conj : forall a, Cconj (cexp a) = cexp (- a).
Proof. intros; apply C_eq; unfold cexp, Cconj; simpl; [rewrite cos_neg | rewrite sin_neg]; ring. Qed.

Lemma cexp_PI : cexp PI = (- (1))%C.
Proof. apply C_eq; unfold cexp, Copp, C1; simpl; [rewrite cos_PI | rewrite sin_PI]; ring. Qed.

Lemma cexp_PI2 : cexp (PI / 2) = Ci.
Proof. apply C_eq; unfold cexp, Ci; simpl; [rewrite cos_PI2 | rewrite sin_PI2]; ring. Qed.

Lemma Cconj_add : forall x y, Cconj (x + y)%C = (Cconj x + Cconj y)%C.
Proof. intros; apply C_eq; unfold Cconj, Cadd; simpl; ring. Qed.
Lemma Cconj_mul : forall x y, Cconj (x * y)%C = (Cconj x * Cconj y)%C.
Proof. intros; apply C_eq; unfold Cconj, Cmul; simpl; ring. Qed.
Lemma Cconj_0 : Cconj 0%C = 0%C.
Proof. apply C_eq; unfold Cconj; simpl; ring. Qed.
Lemma Cconj_1 : Cconj 1%C = 1%C.
Proof. apply C_eq; unfold Cconj; simpl; ring. Qed.
Lemma Cconj_invol : forall x, Cconj (Cconj x) = x.
Proof. intros; apply C_eq; unfold Cconj; simpl; ring. Qed.

Lemma Ci_sq : (Ci * Ci)%C = (- (1))%C.
Proof. apply C_eq; unfold Cmul, Ci, Copp, C1; simpl; ring. Qed.

Lemma C1_neq_C0 : C1 <> C0.
Proof. intro H; injection H; intro H1; lra. Qed.
