(** Lowering of operations and of programs: lemmas on QSysModel, after QSysProofs. *)
From Coq Require Import Reals Lra Lia List Bool Arith FunctionalExtensionality.
From Verif Require Import QComplex QState OpsModel GateSpec GateFacts QSysSpec QSysModel QSysProofs.
Import ListNotations.
Open Scope R_scope.

Lemma lower_op_sem : forall op qs a,
  is_quantum op = true -> length qs = qubits_in op -> NoDup qs ->
  exists gs, lower_op op qs (op_angles op a) = LGates gs /\
    eq_upto_phase (qrun gs) (op_sem op qs a).
Proof.
  intros op qs a Hq Hl Hn.
  assert (H1 : forall x t th M QM o gs, QM = mscale (cexp th) M -> qrun gs = CU [] QM x -> op_mat o t = M ->
    eq_upto_phase (qrun gs) (op_sem o [x] t)).
  { intros x t th M QM o gs EQ E EM. exists th. intro psi. rewrite E, EQ. unfold op_sem; simpl. rewrite EM.
    apply CU_nil_scale. }
  assert (H0 : forall x t o gs, qrun gs = CU [] (op_mat o t) x ->
    eq_upto_phase (qrun gs) (op_sem o [x] t)).
  { intros x t o gs E. exists 0. intro psi. rewrite E, cexp_0, Sc_1. reflexivity. }
  assert (H2 : forall x y : nat, NoDup [x; y] -> x <> y).
  { intros x y N E; subst. inversion N; subst. simpl in *; tauto. }
  destruct op; simpl in Hq; try discriminate; simpl in Hl;
  (destruct qs as [|x [|y [|z [|? ?]]]]; simpl in Hl; try discriminate);
  (eexists; split; [reflexivity|]).
  - eapply H1; [apply h_mat | | reflexivity]. apply functional_extensionality; intro psi.
    unfold build_h, qrun; cbn [fold_left qgate_sem]. rewrite !CU0_BD. comp_bd. reflexivity.
  - eexists; intro; apply cx_ok; auto.
  - eexists; intro; apply cy_ok; auto.
  - eexists; intro; apply cz_ok; auto.
  - exists 0; intro. rewrite cexp_0, Sc_1. apply crz_ok; auto.
  - eapply H1; [apply t_mat | reflexivity | reflexivity].
  - eapply H1; [apply tdg_mat | reflexivity | reflexivity].
  - eapply H1; [apply s_mat | reflexivity | reflexivity].
  - eapply H1; [apply sdg_mat | reflexivity | reflexivity].
  - eapply H1; [apply x_mat | reflexivity | reflexivity].
  - eapply H1; [apply y_mat | reflexivity | reflexivity].
  - eapply H1; [apply z_mat | reflexivity | reflexivity].
  - apply H0. cbn [op_mat]. rewrite <- rx_mat. reflexivity.
  - apply H0. cbn [op_mat]. rewrite <- ry_mat. reflexivity.
  - apply H0. cbn [op_mat]. rewrite <- rz_mat. reflexivity.
  - eexists; intro; apply toffoli_ok; inversion Hn as [|? ? Ha Hb]; subst; inversion Hb; subst; simpl in *; intro; subst; intuition.
  - eapply H1; [apply v_mat | reflexivity | reflexivity].
  - eapply H1; [apply vdg_mat | reflexivity | reflexivity].
Qed.

Lemma lower_op_wf : forall op qs a gs,
  is_quantum op = true -> length qs = qubits_in op -> NoDup qs ->
  lower_op op qs (op_angles op a) = LGates gs ->
  Forall qgate_wf gs /\ (forall g q, In g gs -> In q (qgate_qubits g) -> In q qs).
Proof.
  intros op qs a gs Hq Hl Hn E.
  destruct op; simpl in Hq; try discriminate; simpl in Hl;
  (destruct qs as [|x [|y [|z [|? ?]]]]; simpl in Hl; try discriminate);
  cbn in E; injection E as <-; clear Hq Hl;
  (split;
   [ repeat (apply Forall_cons; [simpl; try exact I;
        inversion Hn as [|? ? Ha Hb]; subst; inversion Hb; subst; simpl in *; intuition|]); apply Forall_nil
   | intros g q Hg Hq'; simpl in Hg |-*;
     repeat (destruct Hg as [<-|Hg]; [simpl in Hq'; intuition|]); destruct Hg ]).
Qed.

Lemma lower_gate_ok : forall op qs a,
  is_quantum op = true -> length qs = qubits_in op -> NoDup qs ->
  exists gs, lower_op op qs (op_angles op a) = LGates gs /\ Forall qgate_wf gs /\
    (forall g q, In g gs -> In q (qgate_qubits g) -> In q qs) /\
    eq_upto_phase (qrun gs) (op_sem op qs a).
Proof.
  intros op qs a Hq Hl Hn. destruct (lower_op_sem op qs a Hq Hl Hn) as (gs & E & P).
  destruct (lower_op_wf op qs a gs Hq Hl Hn E). exists gs; auto.
Qed.

Lemma measure_flip_ok : forall q v,
  eq_upto_phase (fun psi => qrun (flip_branch q v) (project_reset q v psi)) (project q v).
Proof.
  intros q [|].
  - exists (- (PI / 2)). intro psi. unfold flip_branch, build_x, qrun; cbn [fold_left qgate_sem].
    rewrite x_mat, CU_nil_scale. f_equal. apply functional_extensionality; intro b.
    unfold CU, project, project_reset, MX; cbn. rewrite !upd_same.
    destruct (b q) eqn:E; cbn; rewrite ?upd_upd, ?E, ?upd_id by auto; try ring.
    replace (upd b q true) with b. ring. symmetry; rewrite <- E; apply upd_id; auto.
  - exists 0. intro psi. rewrite cexp_0, Sc_1. unfold flip_branch, qrun; cbn [fold_left].
    apply functional_extensionality; intro b. unfold project, project_reset.
    destruct (b q) eqn:E; cbn; [reflexivity|]. f_equal. rewrite <- E. apply upd_id.
Qed.

Lemma project_Sc : forall q v k psi, project q v (Sc k psi) = Sc k (project q v psi).
Proof. intros; apply functional_extensionality; intro b; unfold project, Sc. destruct (Bool.eqb _ _); ring. Qed.
Lemma project_reset_Sc : forall q v k psi, project_reset q v (Sc k psi) = Sc k (project_reset q v psi).
Proof. intros; apply functional_extensionality; intro b; unfold project_reset, Sc. destruct (b q); ring. Qed.
Lemma event_sem_Sc : forall e k psi, event_sem e (Sc k psi) = Sc k (event_sem e psi).
Proof.
  intros [op qs a|q v|q v] k psi; simpl;
    [apply Sc_CU | apply project_Sc | apply project_reset_Sc].
Qed.
Lemma events_sem_Sc : forall es k psi, events_sem es (Sc k psi) = Sc k (events_sem es psi).
Proof.
  unfold events_sem. induction es as [|e es IH]; intros k psi; simpl; [reflexivity|].
  rewrite event_sem_Sc. apply IH.
Qed.

Lemma lower_event_ok : forall e, event_wf e ->
  exists f, lower_event e = Some f /\ eq_upto_phase f (event_sem e).
Proof.
  intros [op qs a|q v|q v] W; simpl in W.
  - destruct W as (Hq & Hl & Hn). destruct (lower_op_sem op qs a Hq Hl Hn) as (gs & E & P).
    exists (qrun gs). split; [|assumption]. unfold lower_event; rewrite E. destruct qs; reflexivity.
  - eexists; split; [reflexivity|]. apply measure_flip_ok.
  - eexists; split; [reflexivity|]. exists 0; intro; rewrite cexp_0, Sc_1; reflexivity.
Qed.

Lemma lower_events_ok : forall es, Forall event_wf es ->
  exists f, lower_events es = Some f /\ eq_upto_phase f (events_sem es).
Proof.
  induction 1 as [|e es W Ws IH].
  - eexists; split; [reflexivity|]. exists 0; intro; rewrite cexp_0, Sc_1; reflexivity.
  - destruct (lower_event_ok e W) as (f & Ef & th & Hf). destruct IH as (g & Eg & th' & Hg).
    exists (fun psi => g (f psi)). split; [simpl; rewrite Ef, Eg; reflexivity|].
    exists (th' + th). intro psi. rewrite Hf, Hg, events_sem_Sc, Sc_Sc, cexp_add. reflexivity.
Qed.

Lemma lower_known : forall op qs angles,
  length qs = qubits_in op -> length angles = params_in op -> lower_op op qs angles <> LUnknown.
Proof.
  intros op qs angles Hq Ha.
  destruct op; simpl in Hq, Ha; try discriminate;
  (destruct qs as [|x [|y [|z [|? ?]]]]; simpl in Hq; try discriminate);
  (destruct angles as [|t [|? ?]]; simpl in Ha; try discriminate); discriminate.
Qed.

Lemma lower_program_ok : forall p,
  (forall op qs angles, In (PTket op qs angles) p ->
     length qs = qubits_in op /\ length angles = params_in op) ->
  exists l, lower_program p = Some l /\ length l = length p /\
    (forall n qs, nth_error p n = Some (PBarrier qs) <-> nth_error l n = Some (LRuntimeBarrier qs)) /\
    (forall n i, nth_error p n = Some (POther i) <-> nth_error l n = Some (LOther i)) /\
    ((forall e, ~ In (PSympy e) p) -> check_lowered l = []).
Proof.
  induction p as [|n p IH]; intro H.
  - exists []; repeat split; intros; try reflexivity; destruct n; discriminate.
  - destruct IH as (l & E & Hl & Hb & Ho & Hc); [intros; eapply H; right; eassumption|].
    assert (Hn : exists l0, lower_program (n :: p) = Some (l0 :: l) /\
       (forall qs, n = PBarrier qs <-> l0 = LRuntimeBarrier qs) /\
       (forall i, n = POther i <-> l0 = LOther i) /\ ((forall e, n <> PSympy e) -> is_tket_quantum l0 = false)).
    { destruct n as [op qs angles|e|qs|i]; simpl; rewrite E.
      - destruct (H op qs angles) as [A B]; [left; reflexivity|].
        pose proof (lower_known op qs angles A B) as K.
        exists (LN (lower_op op qs angles)); split; [destruct (lower_op op qs angles); congruence|].
        repeat split; intros; discriminate.
      - eexists; split; [reflexivity|]. repeat split; intros; try discriminate. exfalso; eapply H0; reflexivity.
      - eexists; split; [reflexivity|]. repeat split; intros; try congruence; discriminate.
      - eexists; split; [reflexivity|]. repeat split; intros; try congruence; discriminate. }
    destruct Hn as (l0 & E0 & Hb0 & Ho0 & Hc0). exists (l0 :: l).
    split; [assumption|]. split; [simpl; congruence|].
    split; [intros [|k] qs; simpl; [|apply Hb]; split; intro Q; injection Q as Q; f_equal; apply Hb0; assumption|].
    split; [intros [|k] i; simpl; [|apply Ho]; split; intro Q; injection Q as Q; f_equal; apply Ho0; assumption|].
    intro Hs. unfold check_lowered in *; simpl. rewrite Hc0.
    + apply Hc. intros e I; apply (Hs e); right; assumption.
    + intros e Q; apply (Hs e); left; auto.
Qed.

Lemma lower_program_sympy : forall p l e, lower_program p = Some l -> In (PSympy e) p -> In (LSympy e) l.
Proof.
  induction p as [|n p IH]; intros l e E Hi; [destruct Hi|destruct Hi as [->|Hi]].
  - simpl in E. destruct (lower_program p); [|discriminate]. injection E as <-. left; reflexivity.
  - simpl in E.
    destruct (match n with PTket op qs angles => _ | PSympy e => _ | PBarrier qs => _ | POther i => _ end); [|discriminate].
    destruct (lower_program p) eqn:Ep; [|discriminate]. injection E as <-. right. eapply IH; eauto.
Qed.
