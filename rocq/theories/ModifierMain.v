(** Proofs of the properties C22 - C26: the synthesis of controlled and daggered operations. *)
From Coq Require Import Reals Lra Lia List Bool Arith FunctionalExtensionality.
From Verif Require Import QComplex QState OpsModel GateSpec GateFacts ModifierModel ModifierOps ModifierProofs ModifierBody.
Import ListNotations.
Open Scope R_scope.

Lemma C22_controlled_gate_pf : forall op cs ts a,
  is_quantum op = true -> length ts = qubits_in op -> NoDup (cs ++ ts) ->
  match op with Z => (length cs <= 1)%nat | CZ => cs = [] | Toffoli => cs = [] | _ => True end ->
  exists r, synthesize op false cs ts a = Ok r /\
    r_cs r = cs /\ r_out r = ts /\ r_anc r = [] /\
    forall psi, run (r_gates r) psi = controlled cs op ts a psi.
Proof.
  intros op cs ts a Hq Hl Hnd Hsup.
  destruct (synthesize_good op false cs ts a Hq Hl Hnd) as (r & E & Hc & Ha & Ho & Hw & Hs).
  exists r; repeat split; auto.
  - rewrite Ho. destruct op; try reflexivity. subst; reflexivity.
  - intro psi. rewrite Hs, CU_when. unfold controlled, when_all1, op_sem; cbn [dg].
    replace (impl_mat op (length cs) a) with (op_mat op a); [reflexivity|].
    symmetry; apply (impl_supported op ts). destruct op; simpl; auto; subst; reflexivity.
Qed.

Lemma C22_controlled_body_pf : forall cs body, NoDup cs ->
  Forall gate_wf body ->
  (forall g q, In g body -> In q (gate_qubits g) -> ~ In q cs) ->
  (forall g, In g body -> match g with
     | G Z _ _ => (length cs <= 1)%nat | G CZ _ _ => cs = [] | G Toffoli _ _ => cs = [] | _ => True end) ->
  exists b, modify_body false cs body = Ok b /\ b_cs b = cs /\ (forall q, b_env b q = q) /\
    Forall gate_wf (b_gates b) /\
    forall psi, run (b_gates b) psi = when_all1 cs (run body) psi.
Proof.
  intros cs body Hnd Hw Ho Hs.
  destruct (modify_body_ctrl cs body Hnd Hw) as (b & E & Hc & He & Hg & Hr).
  - apply Forall_forall; intros g Hg q Hq; eapply Ho; eassumption.
  - apply Forall_forall; intros g Hg; specialize (Hs g Hg). destruct g as [[] ? ?|]; simpl; auto; subst; reflexivity.
  - exists b; repeat split; auto. rewrite He; reflexivity.
Qed.

Lemma C22_phase_deletion_pf : forall gs,
  Forall (fun g => is_phase g = false) (delete_phase gs) /\
  eq_upto_phase (run gs) (run (delete_phase gs)).
Proof.
  intro gs; split.
  - apply Forall_forall; intros; eapply delete_phase_no_phase; eassumption.
  - apply delete_phase_ok.
Qed.

Lemma C23_dagger_inverse_pf : forall op cs ts a,
  is_quantum op = true -> length ts = qubits_in op -> NoDup (cs ++ ts) ->
  exists r rd, synthesize op false cs ts a = Ok r /\ synthesize op true cs ts a = Ok rd /\
    r_cs rd = cs /\
    forall psi, run (r_gates rd) (run (r_gates r) psi) = psi /\
                run (r_gates r) (run (r_gates rd) psi) = psi.
Proof.
  intros op cs ts a Hq Hl Hnd.
  destruct (synthesize_good op false cs ts a Hq Hl Hnd) as (r & E & Hc & Ha & Ho & Hw & Hs).
  destruct (synthesize_good op true cs ts a Hq Hl Hnd) as (rd & Ed & Hcd & Had & Hod & Hwd & Hsd).
  exists r, rd; repeat split; auto;
  rewrite Hs, Hsd; cbn [dg]; apply CU_unitary_inv.
  1,3: destruct (snoc_inv ts) as [l0 [x ->]]; [intros ->; destruct op; discriminate|];
       rewrite removelast_snoc, last_snoc; nd.
  all: destruct op; cbn [impl_mat]; try apply unitary_op_mat;
       match goal with |- unitary (if ?c then _ else _) => destruct c end;
       auto using unitary_MRz, unitary_MZ.
Qed.

Lemma C23_dagger_body_pf : forall cs body, NoDup cs ->
  Forall gate_wf body ->
  (forall g q, In g body -> In q (gate_qubits g) -> ~ In q cs) ->
  (forall g, In g body -> match g with
     | G Z _ _ => (length cs <= 1)%nat | G CZ _ _ => cs = [] | G Toffoli _ _ => cs = [] | _ => True end) ->
  exists b, modify_body true cs body = Ok b /\ b_cs b = cs /\ (forall q, b_env b q = q) /\
    Forall gate_wf (b_gates b) /\
    forall psi, run (b_gates b) (when_all1 cs (run body) psi) = psi /\
                when_all1 cs (run body) (run (b_gates b) psi) = psi.
Proof.
  intros cs body Hnd Hw Ho Hs.
  destruct (modify_body_dag cs body Hnd Hw) as (b & E & Hc & He & Hg & Hr).
  - apply Forall_forall; intros g Hg q Hq; eapply Ho; eassumption.
  - apply Forall_forall; intros g Hg; specialize (Hs g Hg). destruct g as [[] ? ?|]; simpl; auto; subst; reflexivity.
  - exists b; repeat split; auto; try apply Hr. rewrite He; reflexivity.
Qed.

Lemma C24_controlled_cz_refuted_pf : forall cs c t a, cs <> [] -> NoDup (cs ++ [c; t]) ->
  exists r, synthesize CZ false cs [c; t] a = Ok r /\
    ~ eq_upto_phase (run (r_gates r)) (controlled cs CZ [c; t] a).
Proof.
  intros cs c t a Hcs Hnd.
  destruct (synthesize_good CZ false cs [c; t] a eq_refl eq_refl Hnd) as (r & E & Hc & Ha & Ho & Hw & Hs).
  exists r; split; [assumption|]. intros [th Hth].
  destruct cs as [|k K]; [congruence|].
  apply (cz_wrong_gen k (K ++ [c]) t). exists th. intro psi.
  specialize (Hth psi). rewrite Hs in Hth. cbn [length dg impl_mat removelast last] in Hth.
  change (1 <=? Datatypes.S (length K))%nat with true in Hth. cbn [app] in Hth. rewrite Hth.
  first [ reflexivity | f_equal; change (k :: K ++ [c]) with ((k :: K) ++ [c]); rewrite CU_when; reflexivity ].
Qed.

Lemma C24_controlled_z_refuted_pf : forall cs t a, (2 <= length cs)%nat -> NoDup (cs ++ [t]) ->
  exists r, synthesize Z false cs [t] a = Ok r /\
    ~ eq_upto_phase (run (r_gates r)) (controlled cs Z [t] a).
Proof.
  intros cs t a Hcs Hnd.
  destruct (synthesize_good Z false cs [t] a eq_refl eq_refl Hnd) as (r & E & Hc & Ha & Ho & Hw & Hs).
  exists r; split; [assumption|]. intros [th Hth].
  destruct cs as [|k [|k2 K]]; simpl in Hcs; try lia.
  apply (cz_wrong_gen k (k2 :: K) t). exists th. intro psi.
  specialize (Hth psi). rewrite Hs in Hth. cbn [length dg impl_mat removelast last] in Hth.
  change (2 <=? Datatypes.S (Datatypes.S (length K)))%nat with true in Hth.
  rewrite app_nil_r in Hth. rewrite Hth.
  first [ reflexivity | f_equal; rewrite <- (app_nil_r (k :: k2 :: K)) at 2; rewrite CU_when; reflexivity ].
Qed.

Lemma C24_controlled_cz_actual_pf : forall cs c t a, cs <> [] -> NoDup (cs ++ [c; t]) ->
  exists r, synthesize CZ false cs [c; t] a = Ok r /\
    forall psi, run (r_gates r) psi = controlled cs CRz [c; t] 1 psi.
Proof.
  intros cs c t a Hcs Hnd.
  destruct (synthesize_good CZ false cs [c; t] a eq_refl eq_refl Hnd) as (r & E & Hc & Ha & Ho & Hw & Hs).
  exists r; split; [assumption|]. intro psi. rewrite Hs.
  destruct cs as [|k K]; [congruence|]. rewrite CU_when. reflexivity.
Qed.

Lemma C25_toffoli_order_refuted_pf : forall cs x y t a, cs <> [] -> NoDup (cs ++ [x; y; t]) ->
  exists r, synthesize Toffoli false cs [x; y; t] a = Ok r /\ r_out r = [y; x; t] /\ r_out r <> [x; y; t] /\
    forall psi, run (r_gates r) psi = controlled cs Toffoli [x; y; t] a psi.
Proof.
  intros cs x y t a Hcs Hnd.
  destruct (synthesize_good Toffoli false cs [x; y; t] a eq_refl eq_refl Hnd) as (r & E & Hc & Ha & Ho & Hw & Hs).
  assert (Ho' : r_out r = [y; x; t]) by (rewrite Ho; destruct cs; [congruence | reflexivity]).
  exists r; repeat split; auto.
  - rewrite Ho'. intro Heq. assert (Hxy : x <> y) by nd. congruence.
  - intro psi. rewrite Hs, CU_when. reflexivity.
Qed.

Lemma C25_wire_order_pf : forall op d cs ts a,
  is_quantum op = true -> length ts = qubits_in op -> NoDup (cs ++ ts) -> op <> Toffoli \/ cs = [] ->
  exists r, synthesize op d cs ts a = Ok r /\ r_out r = ts /\ r_cs r = cs.
Proof.
  intros op d cs ts a Hq Hl Hnd Hop.
  destruct (synthesize_good op d cs ts a Hq Hl Hnd) as (r & E & Hc & Ha & Ho & Hw & Hs).
  exists r; repeat split; auto. rewrite Ho.
  destruct Hop as [Hop | ->]; destruct op; try reflexivity; congruence.
Qed.

Lemma C26_synthesis_total_pf : forall op d cs ts a,
  is_quantum op = true -> length ts = qubits_in op -> NoDup (cs ++ ts) ->
  exists r, synthesize op d cs ts a = Ok r /\ Forall gate_wf (r_gates r).
Proof.
  intros op d cs ts a Hq Hl Hnd.
  destruct (synthesize_good op d cs ts a Hq Hl Hnd) as (r & E & Hc & Ha & Ho & Hw & Hs).
  exists r; auto.
Qed.

Lemma C26_phase_total_pf : forall d cs a, NoDup cs ->
  exists r, synthesize_phase d cs a = Ok r /\ r_cs r = cs /\ Forall gate_wf (r_gates r) /\
    forall psi, run (r_gates r) psi = when_all1 cs (Sc (cexp (PI * (if d then - a else a)))) psi.
Proof.
  intros d cs a Hnd.
  destruct (synthesize_phase_good d cs a Hnd) as (r & E & Hc & Ha & Hw & Hs). exists r; auto.
Qed.

Lemma C26_non_unitary_refused_pf : forall op d cs ts a, is_quantum op = false ->
  synthesize op d cs ts a =
    if (negb (length cs =? 0)%nat || d)%bool then Err else Ok (MRes [G op ts a] cs [] ts).
Proof.
  intros op d cs ts a Hq. unfold synthesize, synth_fuel.
  replace (9 * (length cs + 3) + 8)%nat with (Datatypes.S (9 * (length cs + 3) + 7)) by lia.
  cbn [modify_tket_op]. rewrite Hq. cbn [negb]. rewrite andb_true_r.
  destruct (negb (length cs =? 0)%nat || d)%bool eqn:E; [reflexivity|].
  destruct op; try discriminate Hq; reflexivity.
Qed.

