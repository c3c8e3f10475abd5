(** Proofs of the properties C30 - C32: lowering of tket operations to the QSystem gate set. *)
From Coq Require Import Reals Lra Lia List Bool Arith FunctionalExtensionality.
From Verif Require Import QComplex QState OpsModel GateSpec GateFacts QSysSpec QSysModel QSysProofs QSysProgs.
Import ListNotations.
Open Scope R_scope.

Lemma C30_gate_lowering_pf : forall op qs a,
  is_quantum op = true -> length qs = qubits_in op -> NoDup qs ->
  exists gs, lower_op op qs (op_angles op a) = LGates gs /\ Forall qgate_wf gs /\
    (forall g q, In g gs -> In q (qgate_qubits g) -> In q qs) /\
    eq_upto_phase (qrun gs) (op_sem op qs a).
Proof.
  intros op qs a Hq Hl Hn. apply lower_gate_ok; assumption.
Qed.

Lemma C30_rotations_exact_pf : forall op qs a,
  op = Rx \/ op = Ry \/ op = Rz \/ op = CRz -> length qs = qubits_in op -> NoDup qs ->
  exists gs, lower_op op qs (op_angles op a) = LGates gs /\
    forall psi, qrun gs psi = op_sem op qs a psi.
Proof.
  intros op qs a Hop Hl Hn.
  destruct Hop as [-> | [-> | [-> | ->]]]; simpl in Hl;
    (destruct qs as [|x [|y [|? ?]]]; simpl in Hl; try discriminate).
  - exists (build_rx x (to_radians a)); split; [reflexivity|]. intro psi.
    unfold build_rx, qrun; cbn [fold_left qgate_sem]. rewrite rx_mat. reflexivity.
  - exists (build_ry x (to_radians a)); split; [reflexivity|]. intro psi.
    unfold build_ry, qrun; cbn [fold_left qgate_sem]. rewrite ry_mat. reflexivity.
  - exists [QRz x (to_radians a)]; split; [reflexivity|]. intro psi.
    unfold qrun; cbn [fold_left qgate_sem]. rewrite rz_mat. reflexivity.
  - exists (build_crz x y (to_radians a)); split; [reflexivity|]. intro psi.
    apply crz_ok. intro; subst; inversion Hn; subst; simpl in *; tauto.
Qed.

Lemma C31_lowered_measurement_pf : forall q v,
  exists f, lowered_sem (lower_op Measure [q] []) [q] v = Some f /\ eq_upto_phase f (project q v).
Proof.
  intros q v. eexists; split; [reflexivity|]. apply measure_flip_ok.
Qed.

Lemma C31_lowered_execution_pf : forall es, Forall event_wf es ->
  exists f, lower_events es = Some f /\ eq_upto_phase f (events_sem es).
Proof.
  intros es H. apply lower_events_ok; assumption.
Qed.

Lemma C32_every_op_lowered_pf : forall op qs angles,
  length qs = qubits_in op -> length angles = params_in op -> lower_op op qs angles <> LUnknown.
Proof.
  intros op qs angles Hq Ha.
  apply lower_known; assumption.
Qed.

Lemma C32_pass_complete_pf : forall p,
  (forall op qs angles, In (PTket op qs angles) p ->
     length qs = qubits_in op /\ length angles = params_in op) ->
  exists l, lower_program p = Some l /\ length l = length p /\
    (forall n qs, nth_error p n = Some (PBarrier qs) <-> nth_error l n = Some (LRuntimeBarrier qs)) /\
    (forall n i, nth_error p n = Some (POther i) <-> nth_error l n = Some (LOther i)) /\
    ((forall e, ~ In (PSympy e) p) -> check_lowered l = []).
Proof.
  intros p H. apply lower_program_ok; assumption.
Qed.

Lemma C32_symbolic_angle_refuted_pf : forall p e,
  (forall op qs angles, In (PTket op qs angles) p ->
     length qs = qubits_in op /\ length angles = params_in op) ->
  In (PSympy e) p ->
  exists l, lower_program p = Some l /\ In (LSympy e) l /\ check_lowered l <> [].
Proof.
  intros p e H Hin. destruct (lower_program_ok p H) as (l & E & _). exists l; split; [assumption|].
  assert (Hl : In (LSympy e) l) by (eapply lower_program_sympy; eassumption).
  split; [assumption|]. intro Hc. unfold check_lowered in Hc.
  assert (Hf : In (LSympy e) (filter is_tket_quantum l)) by (apply filter_In; split; [assumption|reflexivity]).
  rewrite Hc in Hf; destruct Hf.
Qed.

