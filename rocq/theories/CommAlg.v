(** Operators generated by one-qubit matrices, and their commutation. *)
From Coq Require Import Reals List Bool Arith Lia FunctionalExtensionality.
From Verif Require Import QComplex QState OpsModel GateSpec QSysSpec CommSpec.
Import ListNotations.
Open Scope C_scope.

Definition add_op (f g : state -> state) : state -> state := fun psi b => f psi b + g psi b.
Definition scale_op (k : C) (f : state -> state) : state -> state := fun psi b => k * f psi b.

(** The algebra generated by the matrices [gen q M]. *)
Inductive alg (gen : nat -> mat -> Prop) : (state -> state) -> Prop :=
  | alg_id : alg gen (fun psi => psi)
  | alg_gen q M : gen q M -> alg gen (on q M)
  | alg_scale k f : alg gen f -> alg gen (scale_op k f)
  | alg_add f g : alg gen f -> alg gen g -> alg gen (add_op f g)
  | alg_comp f g : alg gen f -> alg gen g -> alg gen (fun psi => f (g psi)).

Definition linear (f : state -> state) : Prop :=
  (forall x y, f (fun b => x b + y b) = fun b => f x b + f y b) /\ (forall k x, f (fun b => k * x b) = fun b => k * f x b).
Lemma on_linear : forall q M, linear (on q M).
Proof.
  intros q M. split; intros; apply functional_extensionality; intro b; unfold on, CU; simpl; destruct (b q); ring.
Qed.
Lemma alg_linear : forall gen f, alg gen f -> linear f.
Proof.
  intros gen f H. induction H as [|q M|k f _ [A B]|f g _ [A B] _ [A' B']|f g _ [A B] _ [A' B']].
  - split; reflexivity.
  - apply on_linear.
  - split; intros; unfold scale_op; [rewrite A|rewrite B]; apply functional_extensionality; intro b; ring.
  - split; intros; unfold add_op; [rewrite A, A'|rewrite B, B']; apply functional_extensionality; intro b; ring.
  - split; intros; [rewrite A', A|rewrite B', B]; reflexivity.
Qed.

Lemma on_comm : forall q M r N, (q = r -> mmul M N = mmul N M) -> commute (on q M) (on r N).
Proof.
  intros q M r N H psi. unfold on. destruct (Nat.eq_dec q r) as [->|E].
  - rewrite !CU_comp by (intros []). rewrite (H eq_refl). reflexivity.
  - apply CU_comm_disj; [congruence|intros []|intros []].
Qed.

Definition gens_commute (g h : nat -> mat -> Prop) : Prop := forall q M N, g q M -> h q N -> mmul M N = mmul N M.
Lemma alg_comm_gen : forall g h q M f, gens_commute g h -> g q M -> alg h f -> commute (on q M) f.
Proof.
  intros g h q M f GC HM H. destruct (on_linear q M) as [LA LS]. induction H as [|r N HN|k f _ IH|f f' _ IH1 _ IH2|f f' _ IH1 _ IH2]; intro psi.
  - reflexivity.
  - apply on_comm. intros <-. apply (GC q); assumption.
  - unfold scale_op. rewrite LS, IH. reflexivity.
  - unfold add_op. rewrite LA, IH1, IH2. reflexivity.
  - rewrite IH1, IH2. reflexivity.
Qed.
Lemma alg_comm : forall g h f k, gens_commute g h -> alg g f -> alg h k -> commute f k.
Proof.
  intros g h f k GC Hf Hk. destruct (alg_linear h k Hk) as [LA LS].
  induction Hf as [|q M HM|c f _ IH|f f' _ IH1 _ IH2|f f' _ IH1 _ IH2]; intro psi.
  - reflexivity.
  - eapply alg_comm_gen; eassumption.
  - unfold scale_op. rewrite LS, IH. reflexivity.
  - unfold add_op. rewrite LA, IH1, IH2. reflexivity.
  - rewrite IH2, IH1. reflexivity.
Qed.
Lemma alg_mono : forall (g h : nat -> mat -> Prop) f, (forall q M, g q M -> h q M) -> alg g f -> alg h f.
Proof.
  intros g h f S H. induction H.
  - apply alg_id.
  - apply alg_gen. auto.
  - apply alg_scale; assumption.
  - apply alg_add; assumption.
  - apply alg_comp; assumption.
Qed.

(** Projector on 1. *)
Definition P1 : mat := Mat 0 0 0 1.
Lemma CU_split : forall c cs M t psi, t <> c ->
  CU (c :: cs) M t psi = add_op (fun psi => on c P1 (CU cs M t psi)) (add_op (fun psi => psi) (scale_op (- (1)) (on c P1))) psi.
Proof.
  intros c cs M t psi E. apply functional_extensionality; intro b. unfold add_op, scale_op, on.
  unfold CU at 2 3. cbn [all1 forallb]. unfold CU. rewrite all1_cons.
  destruct (b c) eqn:Eb.
  - replace (upd b c true) with b by (rewrite <- Eb; symmetry; apply upd_id). simpl. destruct (all1 cs b); ring.
  - simpl. replace (upd b c false) with b by (rewrite <- Eb; symmetry; apply upd_id). ring.
Qed.
Lemma alg_ext : forall gen f g, (forall psi, f psi = g psi) -> alg gen g -> alg gen f.
Proof. intros gen f g E H. replace f with g; [assumption|]. apply functional_extensionality. intro. symmetry. apply E. Qed.
Lemma CU_alg : forall (gen : nat -> mat -> Prop) cs M t, (forall c, In c cs -> alg gen (on c P1)) -> alg gen (on t M) -> ~ In t cs -> alg gen (CU cs M t).
Proof.
  intros gen. induction cs as [|c cs IH]; intros M t Hc Ht Hn; [exact Ht|].
  eapply alg_ext; [intro; apply CU_split; intro; apply Hn; left; congruence|].
  apply alg_add; [|apply alg_add; [apply alg_id|apply alg_scale, Hc; left; reflexivity]].
  apply (alg_comp gen (on c P1) (CU cs M t)); [apply Hc; left; reflexivity|]. apply IH; [|assumption|].
  - intros d Hd. apply Hc. right. assumption.
  - intro H. apply Hn. right. assumption.
Qed.

(** Combinations of the identity and a generator. *)
Lemma on_comb : forall (gen : nat -> mat -> Prop) q P M a c, gen q P ->
  M = Mat (a + c * m00 P) (c * m01 P) (c * m10 P) (a + c * m11 P) -> alg gen (on q M).
Proof.
  intros gen q P M a c G ->.
  eapply alg_ext with (g := add_op (scale_op a (fun psi => psi)) (scale_op c (on q P))); [|apply alg_add; apply alg_scale; [apply alg_id|apply alg_gen; assumption]].
  intro psi. apply functional_extensionality; intro b. unfold add_op, scale_op, on, CU. simpl.
  rewrite <- (upd_id b q) at 5. destruct (b q); simpl; ring.
Qed.

(** The generators of an operation: on a qubit with an entry in the table the identity and that
    Pauli, on the others all matrices. *)
Definition entry (op : TketOp) (port : nat) : option Pauli :=
  option_map snd (find (fun x => Nat.eqb (fst x) port) (qubit_commutation op)).
Definition gens (op : TketOp) (qs : list nat) (q : nat) (M : mat) : Prop :=
  exists port, nth_error qs port = Some q /\ match entry op port with Some P => M = pauli_mat P | None => True end.

Lemma gen_any : forall op qs port q M, nth_error qs port = Some q -> entry op port = None -> alg (gens op qs) (on q M).
Proof. intros. apply alg_gen. exists port. rewrite H0. auto. Qed.

Lemma project_on : forall q v, project q v = on q (if v then P1 else Mat 1 0 0 0).
Proof.
  intros q v. apply functional_extensionality; intro psi. apply functional_extensionality; intro b. unfold project, on, CU. simpl.
  destruct v; destruct (b q) eqn:E; simpl; try ring.
  - replace (upd b q true) with b by (rewrite <- E; symmetry; apply upd_id). ring.
  - replace (upd b q false) with b by (rewrite <- E; symmetry; apply upd_id). ring.
Qed.
Lemma project_reset_on : forall q v, project_reset q v = on q (if v then Mat 0 1 0 0 else Mat 1 0 0 0).
Proof.
  intros q v. apply functional_extensionality; intro psi. apply functional_extensionality; intro b. unfold project_reset, on, CU. simpl.
  destruct v; destruct (b q) eqn:E; simpl; ring.
Qed.

Definition half : C := RtoC (/ 2).
Lemma half_half : forall x, half * x + half * x = x.
Proof. intro x. apply C_eq; destruct x; simpl; field. Qed.

Lemma on_diag : forall (gen : nat -> mat -> Prop) q x y, gen q MZ -> alg gen (on q (Mat x 0 0 y)).
Proof.
  intros gen q x y G. apply on_comb with (P := MZ) (a := half * (x + y)) (c := half * (x - y)); [assumption|].
  apply mat_eq; simpl; try ring.
  - rewrite <- (half_half x) at 1. ring.
  - rewrite <- (half_half y) at 1. ring.
Qed.
Lemma on_xlike : forall (gen : nat -> mat -> Prop) q x y, gen q MX -> alg gen (on q (Mat x y y x)).
Proof. intros gen q x y G. apply on_comb with (P := MX) (a := x) (c := y); [assumption|]. apply mat_eq; simpl; ring. Qed.

(** What an operation does is generated by its generators. *)
Lemma behaves_alg : forall op qs f, behaves op qs f -> alg (gens op qs) f.
Proof.
  intros op qs f H. destruct H as [op qs a Hq Hl Hn|q v|q v|q v|q].
  - unfold op_sem.
    assert (Ent : forall port q P, nth_error qs port = Some q -> entry op port = Some P -> gens op qs q (pauli_mat P)).
    { intros port q P Hp He. exists port. rewrite He. auto. }
    assert (Any : forall port q M, nth_error qs port = Some q -> entry op port = None -> alg (gens op qs) (on q M)) by (intros; eapply gen_any; eassumption).
    destruct op; try discriminate Hq; simpl in Hl;
      repeat (destruct qs as [|?q qs]; [discriminate Hl|]); try discriminate Hl;
      try (destruct qs; [|discriminate Hl]); simpl removelast; simpl last; try match goal with |- alg _ (CU [] ?M ?x) => change (CU [] M x) with (on x M) end.
    all: try (apply (Any 0%nat); reflexivity).
    all: try (apply alg_gen; apply (Ent 0%nat q PX); reflexivity).
    all: try (apply alg_gen; apply (Ent 0%nat q PY); reflexivity).
    all: try (apply alg_gen; apply (Ent 0%nat q PZ); reflexivity).
    all: try (unfold op_mat, mdag; simpl; rewrite ?Cconj_0, ?Cconj_1; apply on_diag; apply (Ent 0%nat q PZ); reflexivity).
    all: try (unfold op_mat, mdag, MV; simpl; apply on_xlike; apply (Ent 0%nat q PX); reflexivity).
    all: inversion Hn as [|? ? Hn1 Hn2]; subst.
    + apply CU_alg; [intros c [<-|[]]; apply on_diag; apply (Ent 0%nat q PZ); reflexivity|apply alg_gen; apply (Ent 1%nat q0 PX); reflexivity|].
      intros [E|[]]. apply Hn1. left. congruence.
    + apply CU_alg; [intros c [<-|[]]; apply (Any 0%nat); reflexivity|apply (Any 1%nat); reflexivity|].
      intros [E|[]]. apply Hn1. left. congruence.
    + apply CU_alg; [intros c [<-|[]]; apply on_diag; apply (Ent 0%nat q PZ); reflexivity|apply alg_gen; apply (Ent 1%nat q0 PZ); reflexivity|].
      intros [E|[]]. apply Hn1. left. congruence.
    + apply CU_alg; [intros c [<-|[]]; apply (Any 0%nat); reflexivity|apply (Any 1%nat); reflexivity|].
      intros [E|[]]. apply Hn1. left. congruence.
    + inversion Hn2 as [|? ? Hn3 _]; subst.
      apply CU_alg; [intros c [<-|[<-|[]]]; [apply (Any 0%nat)|apply (Any 1%nat)]; reflexivity|apply (Any 2%nat); reflexivity|].
      intros [E|[E|[]]]; [apply Hn1; right; left; congruence|apply Hn3; left; congruence].
  - rewrite project_on. destruct v; unfold P1; apply on_diag; exists 0%nat; split; reflexivity.
  - rewrite project_on. apply gen_any with (port := 0%nat); reflexivity.
  - rewrite project_reset_on. apply gen_any with (port := 0%nat); reflexivity.
  - apply alg_id.
Qed.

Lemma pauli_mat_comm : forall p q, commutes_with p q = true -> mmul (pauli_mat p) (pauli_mat q) = mmul (pauli_mat q) (pauli_mat p).
Proof. intros [] [] H; try discriminate H; unfold pauli_mat; rewrite ?mmul_I_l, ?mmul_I_r; reflexivity. Qed.

(** Operations whose entries commute on every shared qubit commute. *)
Definition compatible (op1 : TketOp) (qs1 : list nat) (op2 : TketOp) (qs2 : list nat) : Prop :=
  forall q i j, nth_error qs1 i = Some q -> nth_error qs2 j = Some q ->
    exists p1 p2, entry op1 i = Some p1 /\ entry op2 j = Some p2 /\ commutes_with p1 p2 = true.
Lemma compatible_commute : forall op1 qs1 f1 op2 qs2 f2, behaves op1 qs1 f1 -> behaves op2 qs2 f2 ->
  compatible op1 qs1 op2 qs2 -> commute f1 f2.
Proof.
  intros op1 qs1 f1 op2 qs2 f2 B1 B2 Hc. apply behaves_alg in B1. apply behaves_alg in B2.
  eapply alg_comm; [|exact B1|exact B2]. intros q M N (i & Hi & Mi) (j & Hj & Nj).
  destruct (Hc q i j Hi Hj) as (p1 & p2 & E1 & E2 & C). rewrite E1 in Mi. rewrite E2 in Nj. subst. apply pauli_mat_comm. assumption.
Qed.
