(** From single operations to bodies of operations, and the facts behind the properties of
    [ModifierProps]. *)
From Coq Require Import Reals Lra Lia List Bool Arith FunctionalExtensionality.
From Verif Require Import QComplex QState OpsModel GateSpec GateFacts ModifierModel ModifierOps ModifierProofs.
Import ListNotations.
Open Scope R_scope.

Lemma synthesize_good : forall op d cs ts a,
  is_quantum op = true -> length ts = qubits_in op -> NoDup (cs ++ ts) ->
  exists r, synthesize op d cs ts a = Ok r /\ Good op d cs [] ts a r.
Proof.
  intros op d cs ts a Hq Hl Hnd. unfold synthesize.
  apply (proj1 (synthesis_correct (synth_fuel (length cs)))); auto.
  unfold need, synth_fuel. destruct op; simpl; lia.
Qed.

Lemma synthesize_phase_good : forall d cs a, NoDup cs ->
  exists r, synthesize_phase d cs a = Ok r /\ GoodP d cs [] a r.
Proof.
  intros d cs a Hnd. unfold synthesize_phase.
  apply (proj2 (proj2 (synthesis_correct (synth_fuel (length cs))))).
  - rewrite app_nil_r; assumption.
  - unfold synth_fuel; lia.
Qed.

Lemma CU_when : forall cs K M t psi, CU (cs ++ K) M t psi = when_all1 cs (CU K M t) psi.
Proof.
  intros; apply functional_extensionality; intro b. unfold when_all1, CU.
  rewrite all1_app. destruct (all1 cs b); reflexivity.
Qed.

Lemma CPh_when : forall cs a psi, CPh cs a psi = when_all1 cs (Sc (cexp (PI * a))) psi.
Proof. reflexivity. Qed.

(** A transformation that does not touch the qubits [cs]. *)
Definition local_off (cs : list nat) (f : state -> state) : Prop :=
  forall psi psi' b, (forall b', (forall c, In c cs -> b' c = b c) -> psi b' = psi' b') ->
    f psi b = f psi' b.

Lemma local_CU : forall cs K M t, ~ In t cs -> local_off cs (CU K M t).
Proof.
  intros cs K M t Ht psi psi' b Hb. unfold CU.
  destruct (all1 K b).
  - rewrite !Hb; [reflexivity | |]; intros c Hc; apply upd_other; intros ->; contradiction.
  - apply Hb; auto.
Qed.
Lemma local_Sc : forall cs k, local_off cs (Sc k).
Proof. intros cs k psi psi' b Hb. unfold Sc. rewrite Hb; auto. Qed.

Definition gate_off (cs : list nat) (g : gate) : Prop := forall q, In q (gate_qubits g) -> ~ In q cs.

Lemma last_in : forall (l : list nat) d, l <> [] -> In (last l d) l.
Proof.
  intros l d Hl; destruct (snoc_inv l Hl) as [l0 [x ->]]. rewrite last_snoc, in_app_iff; simpl; auto.
Qed.

Lemma wf_nonnil : forall op qs a, gate_wf (G op qs a) -> qs <> [].
Proof. intros op qs a (Hq & Hl & _) ->; destruct op; simpl in *; discriminate. Qed.

Lemma local_gate : forall cs g, gate_wf g -> gate_off cs g -> local_off cs (gate_sem g).
Proof.
  intros cs [op qs a|a] Hw Ho; simpl; [|apply local_Sc].
  apply local_CU. apply Ho. simpl. apply last_in. eapply wf_nonnil; eassumption.
Qed.

Lemma local_run : forall cs gs, Forall gate_wf gs -> Forall (gate_off cs) gs -> local_off cs (run gs).
Proof.
  intros cs gs; induction gs as [|g gs IH]; intros Hw Ho psi psi' b Hb.
  - rewrite !run_nil; apply Hb; auto.
  - rewrite !run_cons. inversion Hw; inversion Ho; subst.
    apply IH; auto. intros b' Hb'. apply (local_gate cs g); auto.
    intros b'' Hb''. apply Hb. intros c Hc. rewrite Hb'' by assumption. auto.
Qed.

Lemma when_comp : forall cs f g psi, local_off cs f ->
  when_all1 cs f (when_all1 cs g psi) = when_all1 cs (fun s => f (g s)) psi.
Proof.
  intros cs f g psi Hf. apply functional_extensionality; intro b. unfold when_all1 at 1 3.
  destruct (all1 cs b) eqn:E.
  - apply Hf. intros b' Hb'. unfold when_all1.
    assert (E' : all1 cs b' = true).
    { unfold all1 in *. rewrite forallb_forall in *. intros x Hx. rewrite Hb' by assumption. auto. }
    rewrite E'; reflexivity.
  - unfold when_all1; rewrite E; reflexivity.
Qed.

Definition wrun (cs : list nat) (gs : list gate) (psi : state) : state :=
  fold_left (fun s g => when_all1 cs (gate_sem g) s) gs psi.

Lemma wrun_when : forall cs gs psi, Forall gate_wf gs -> Forall (gate_off cs) gs ->
  wrun cs gs psi = when_all1 cs (run gs) psi.
Proof.
  intros cs gs; induction gs as [|g gs IH]; intros psi Hw Ho.
  - apply functional_extensionality; intro b; unfold when_all1. rewrite run_nil.
    destruct (all1 cs b); reflexivity.
  - inversion Hw; inversion Ho; subst.
    change (wrun cs (g :: gs) psi) with (wrun cs gs (when_all1 cs (gate_sem g) psi)).
    rewrite IH by assumption.
    rewrite when_comp by (apply local_run; assumption). reflexivity.
Qed.

(** The inverse of a gate. *)
Definition gate_inv (g : gate) : state -> state :=
  match g with
  | G op qs a => op_sem_dag op qs a
  | GPhase a => Sc (cexp (PI * - a))
  end.
Definition gsem (d : bool) (g : gate) : state -> state := if d then gate_inv g else gate_sem g.

Definition dwrun (d : bool) (cs : list nat) (gs : list gate) (psi : state) : state :=
  fold_left (fun s g => when_all1 cs (gsem d g) s) gs psi.

Lemma when_inv : forall cs g psi, gate_wf g -> gate_off cs g ->
  when_all1 cs (gate_inv g) (when_all1 cs (gate_sem g) psi) = psi /\
  when_all1 cs (gate_sem g) (when_all1 cs (gate_inv g) psi) = psi.
Proof.
  intros cs [op qs a|a] psi Hw Ho.
  - cbn [gate_inv gate_sem]. unfold op_sem, op_sem_dag.
    assert (Hl : ~ In (last qs O) cs) by (apply Ho, last_in; eapply wf_nonnil; eassumption).
    assert (Hl2 : ~ In (last qs O) (cs ++ removelast qs)).
    { rewrite in_app_iff; intros [?|Hin]; [contradiction|].
      destruct (snoc_inv qs) as [l0 [x ->]]; [eapply wf_nonnil; eassumption|].
      rewrite removelast_snoc, last_snoc in *. destruct Hw as (_ & _ & Hnd). assert (Hx : ~ In x l0) by nd; contradiction. }
    rewrite <- !CU_when.
    apply CU_unitary_inv; [assumption | apply unitary_op_mat].
  - cbn [gate_inv gate_sem]. split; apply functional_extensionality; intro b; unfold when_all1, Sc;
    destruct (all1 cs b); auto.
    + replace (cexp (PI * - a) * (cexp (PI * a) * psi b))%C with ((cexp (PI * - a) * cexp (PI * a)) * psi b)%C by ring.
      rewrite <- cexp_add. replace (PI * - a + PI * a) with 0 by ring. rewrite cexp_0; ring.
    + replace (cexp (PI * a) * (cexp (PI * - a) * psi b))%C with ((cexp (PI * a) * cexp (PI * - a)) * psi b)%C by ring.
      rewrite <- cexp_add. replace (PI * a + PI * - a) with 0 by ring. rewrite cexp_0; ring.
Qed.

Lemma dwrun_inv : forall cs gs psi, Forall gate_wf gs -> Forall (gate_off cs) gs ->
  dwrun true cs (rev gs) (wrun cs gs psi) = psi /\ wrun cs gs (dwrun true cs (rev gs) psi) = psi.
Proof.
  intros cs gs; induction gs as [|g gs IH]; intros psi Hw Ho; [split; reflexivity|].
  inversion Hw; inversion Ho; subst. unfold dwrun, wrun in *. simpl. rewrite !fold_left_app. simpl.
  split.
  - rewrite (proj1 (IH _ ltac:(assumption) ltac:(assumption))). apply when_inv; assumption.
  - destruct (when_inv cs g (fold_left (fun s g => when_all1 cs (gsem true g) s) (rev gs) psi)) as [_ E]; auto.
    cbn [gsem] in *. rewrite E. apply IH; assumption.
Qed.

(** The operations for which the synthesis is right with [n] controls. *)
Definition supported (n : nat) (g : gate) : Prop :=
  match g with
  | G Z _ _ => (n <= 1)%nat
  | G CZ _ _ => n = 0%nat
  | G Toffoli _ _ => n = 0%nat
  | _ => True
  end.

Lemma set_env_id : forall qs, set_env (fun q => q) qs qs = (fun q => q).
Proof.
  intro qs. unfold set_env.
  assert (Hg : forall l (e : nat -> nat), (forall p, In p l -> fst p = snd p) -> (forall q, e q = q) ->
     forall q, fold_left (fun e p q => if Nat.eqb q (fst p) then snd p else e q) l e q = q).
  { induction l as [|p l IH]; intros e Hl He q; simpl; [apply He|].
    apply IH; [intros; apply Hl; simpl; auto|]. intro q'.
    destruct (Nat.eqb_spec q' (fst p)); [rewrite <- Hl by (simpl; auto); auto | apply He]. }
  apply functional_extensionality; intro q. apply Hg; auto.
  clear. induction qs as [|x qs IH]; intros p; simpl; [tauto|].
  intros [<-|H]; [reflexivity | apply IH; assumption].
Qed.

Lemma impl_supported : forall op qs a n, supported n (G op qs a) ->
  impl_mat op n a = op_mat op a.
Proof.
  intros op qs a n Hs; destruct op; simpl in *; try reflexivity.
  - subst; reflexivity.
  - destruct n as [|[|n]]; try reflexivity; lia.
Qed.

Lemma modify_ops_ok : forall d cs ops, NoDup cs ->
  Forall gate_wf ops -> Forall (gate_off cs) ops -> Forall (supported (length cs)) ops ->
  exists b, modify_ops d cs (fun q => q) ops = Ok b /\ b_cs b = cs /\ b_env b = (fun q => q) /\
    Forall gate_wf (b_gates b) /\ forall psi, run (b_gates b) psi = dwrun d cs ops psi.
Proof.
  intros d cs ops Hnd; induction ops as [|g ops IH]; intros Hw Ho Hs.
  - eexists; split; [reflexivity|]. simpl; repeat split; constructor.
  - inversion Hw; inversion Ho; inversion Hs; subst.
    destruct IH as (b & Eb & Hbc & Hbe & Hbw & Hbs); auto.
    destruct g as [op qs a|a]; cbn [modify_ops].
    + rewrite map_id.
      assert (Hnd2 : NoDup (cs ++ qs)).
      { apply NoDup_count_occ' with (decA := Nat.eq_dec). intros x Hx. rewrite count_occ_app.
        rewrite in_app_iff in Hx.
        assert (Hg : gate_wf (G op qs a)) by assumption. destruct Hg as (_ & _ & Hq).
        assert (Hoff : gate_off cs (G op qs a)) by assumption.
        destruct (in_dec Nat.eq_dec x qs) as [Hi|Hi].
        - assert (Hn : ~ In x cs) by (apply Hoff; exact Hi).
          rewrite (proj1 (count_occ_not_In Nat.eq_dec cs x) Hn).
          rewrite (proj1 (NoDup_count_occ' Nat.eq_dec qs) Hq x Hi). reflexivity.
        - rewrite (proj1 (count_occ_not_In Nat.eq_dec qs x) Hi).
          destruct Hx as [Hx|]; [|contradiction].
          rewrite (proj1 (NoDup_count_occ' Nat.eq_dec cs) Hnd x Hx). reflexivity. }
      assert (Hg : gate_wf (G op qs a)) by assumption. destruct Hg as (Hq & Hl & _).
      destruct (synthesize_good op d cs qs a Hq Hl Hnd2) as (r & Er & Hc & Ha & Hout & Hgw & Hgs).
      rewrite Er; cbn [obind].
      assert (Hout' : r_out r = qs).
      { rewrite Hout. assert (Hsup : supported (length cs) (G op qs a)) by assumption.
        destruct op; try reflexivity. simpl in Hsup. destruct cs; [reflexivity | discriminate]. }
      rewrite Hout', set_env_id, Hc, Eb; cbn [obind].
      eexists; split; [reflexivity|]; cbn [b_gates b_cs b_env].
      repeat split; auto.
      * apply Forall_app; split; assumption.
      * intro psi. rewrite run_app, Hbs, Hgs.
        rewrite (impl_supported op qs a) by assumption.
        unfold dwrun; cbn [fold_left]. rewrite CU_when. f_equal. destruct d; reflexivity.
    + destruct (synthesize_phase_good d cs a Hnd) as (r & Er & Hc & Ha & Hgw & Hgs).
      rewrite Er; cbn [obind]. rewrite Hc, Eb; cbn [obind].
      eexists; split; [reflexivity|]; cbn [b_gates b_cs b_env].
      repeat split; auto.
      * apply Forall_app; split; assumption.
      * intro psi. rewrite run_app, Hbs, Hgs, CPh_when.
        unfold dwrun; cbn [fold_left]. f_equal. destruct d; reflexivity.
Qed.

Lemma modify_body_ctrl : forall cs body, NoDup cs ->
  Forall gate_wf body -> Forall (gate_off cs) body -> Forall (supported (length cs)) body ->
  exists b, modify_body false cs body = Ok b /\ b_cs b = cs /\ b_env b = (fun q => q) /\
    Forall gate_wf (b_gates b) /\ forall psi, run (b_gates b) psi = when_all1 cs (run body) psi.
Proof.
  intros cs body Hnd Hw Ho Hs. unfold modify_body.
  destruct (modify_ops_ok false cs body Hnd Hw Ho Hs) as (b & E & Hc & He & Hg & Hr).
  exists b; repeat split; auto. intro psi. rewrite Hr. apply (wrun_when cs body psi Hw Ho).
Qed.

Lemma Forall_rev' : forall (P : gate -> Prop) l, Forall P l -> Forall P (rev l).
Proof. intros P l H; apply Forall_rev; assumption. Qed.

Lemma modify_body_dag : forall cs body, NoDup cs ->
  Forall gate_wf body -> Forall (gate_off cs) body -> Forall (supported (length cs)) body ->
  exists b, modify_body true cs body = Ok b /\ b_cs b = cs /\ b_env b = (fun q => q) /\
    Forall gate_wf (b_gates b) /\ forall psi,
      run (b_gates b) (when_all1 cs (run body) psi) = psi /\
      when_all1 cs (run body) (run (b_gates b) psi) = psi.
Proof.
  intros cs body Hnd Hw Ho Hs. unfold modify_body.
  destruct (modify_ops_ok true cs (rev body) Hnd) as (b & E & Hc & He & Hg & Hr);
    try apply Forall_rev'; auto.
  exists b; repeat split; auto; rewrite Hr, <- wrun_when by assumption; apply dwrun_inv; assumption.
Qed.

(** Removing the global phases changes the circuit by one global phase. *)
Lemma delete_phase_ok : forall gs, exists t : R, forall psi, run gs psi = Sc (cexp t) (run (delete_phase gs) psi).
Proof.
  induction gs as [|g gs [t IH]].
  - exists 0. intro psi. rewrite cexp_0, Sc_1. reflexivity.
  - destruct g as [op qs a|a].
    + exists t. intro psi. cbn [delete_phase filter]. fold (delete_phase gs). rewrite !run_cons. apply IH.
    + exists (t + PI * a). intro psi. cbn [delete_phase filter]. fold (delete_phase gs).
      rewrite run_cons, IH. cbn [gate_sem].
      assert (HS : forall gs k psi, run gs (Sc k psi) = Sc k (run gs psi)).
      { clear. induction gs as [|g gs IH]; intros k psi; [reflexivity|].
        rewrite !run_cons. rewrite <- IH. f_equal. destruct g as [op qs a|a]; cbn [gate_sem].
        - unfold op_sem. apply Sc_CU.
        - apply functional_extensionality; intro b; unfold Sc; ring. }
      rewrite HS, Sc_Sc, cexp_add. reflexivity.
Qed.

Lemma delete_phase_no_phase : forall gs g, In g (delete_phase gs) -> is_phase g = false.
Proof. intros gs g H. apply filter_In in H. destruct H as [_ H], g; simpl in *; congruence. Qed.

(** What Z and CZ become is not the multi-controlled Z. *)
Lemma cz_wrong_gen : forall k K t, ~ eq_upto_phase (CU (k :: K) (MRz 1) t) (CU (k :: K) MZ t).
Proof.
  intros k K t [th Hth]. specialize (Hth (fun _ => 1%C)).
  pose proof (f_equal (fun f => f (fun _ => false)) Hth) as E0.
  pose proof (f_equal (fun f => f (fun _ => true)) Hth) as E1.
  cbv beta in E0, E1. unfold Sc in E0, E1. rewrite !CU_def in E0, E1.
  assert (A1 : all1 (k :: K) (fun _ => true) = true).
  { unfold all1; apply forallb_forall; reflexivity. }
  rewrite A1 in E1. simpl in E0. simpl in E1.
  assert (Hth1 : cexp th = 1%C) by (rewrite E0; ring).
  rewrite Hth1 in E1.
  assert (E2 : cexp (PI * 1 / 2) = (- (1))%C).
  { transitivity (0 * 1 + cexp (PI * 1 / 2) * 1)%C; [ring|]. rewrite E1; ring. }
  replace (PI * 1 / 2) with (PI / 2) in E2 by field.
  rewrite cexp_PI2 in E2. apply (f_equal fst) in E2. simpl in E2. lra.
Qed.
