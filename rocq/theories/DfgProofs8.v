(** The meaning of modified regions. *)
From Coq Require Import Reals List Bool Arith Lia Permutation FunctionalExtensionality.
From Verif Require Import OpsModel DfgModel DfgSpec DfgSem QComplex QState GateSpec GateFacts ModifierModel ModifierOps ModifierProofs ModifierBody.
Import ListNotations.
Open Scope R_scope.

Section Sem.
Variable A : Type.
Variable ang : A -> R.
Notation esem := (event_sem ang).
Notation gof := (gate_of ang).

(** Gates on their qubits. *)
Definition event_ok (e : event A) : Prop :=
  match e with
  | Ev o d cs ts a =>
      NoDup (cs ++ ts) /\ match o with Tk t => is_quantum t = true /\ length ts = qubits_in t | Ph => ts = [] end
  end.

Lemma event_synth : forall e, event_ok e ->
  match e with Ev o _ cs _ _ => right_with (length cs) o end ->
  exists r, synthesised ang e r /\ Forall gate_wf (r_gates r) /\ forall psi, run (r_gates r) psi = esem e psi.
Proof.
  intros [o d cs ts a] (N & H) Rt. destruct o as [t|].
  - destruct H as [Q L]. destruct (synthesize_good t d cs ts (angle ang a) Q L N) as (r & Er & Hc & Ha & Ho & Hw & Hs).
    assert (Sp : supported (length cs) (G t ts (angle ang a))).
    { destruct t; simpl in *; auto. }
    exists r. split; [|split; auto].
    + simpl. split; auto. split; auto. rewrite Ho.
      destruct t; try reflexivity. simpl in Rt. destruct cs; [reflexivity|discriminate].
    + intro psi. rewrite Hs, (impl_supported t ts (angle ang a)) by assumption. rewrite CU_when.
      destruct d; reflexivity.
  - subst ts. rewrite app_nil_r in N.
    destruct (synthesize_phase_good d cs (angle ang a) N) as (r & Er & Hc & Ha & Hw & Hs).
    exists r. split; [simpl; auto|]. split; auto.
Qed.

Lemma events_synth : forall es,
  (forall e, In e es -> event_ok e /\ match e with Ev o _ cs _ _ => right_with (length cs) o end) ->
  exists rs, Forall2 (synthesised ang) es rs /\ Forall gate_wf (flat_map r_gates rs) /\
    forall psi, run (flat_map r_gates rs) psi = events_sem ang es psi.
Proof.
  induction es as [|e es IH]; intro H.
  - exists []. split; [constructor|]. split; [constructor|]. auto.
  - destruct IH as (rs & F & Wf & R); [intros; apply H; simpl; auto|].
    destruct (H e) as [Oe Re]; [simpl; auto|]. destruct (event_synth e Oe Re) as (r & Sy & Wr & Rr).
    exists (r :: rs). split; [constructor; auto|]. split; [simpl; apply Forall_app; auto|].
    intro psi. simpl. rewrite run_app, Rr, R. reflexivity.
Qed.

(** Modified gates. *)
Definition plain (e : event A) : Prop := match e with Ev _ d cs _ _ => d = false /\ cs = [] end.

Lemma modified_sem : forall d cs e psi, plain e ->
  esem (modified_event d cs e) psi = when_all1 cs (gsem d (gof e)) psi.
Proof.
  intros d cs [o d' cs' ts a] psi [-> ->]. simpl. rewrite app_nil_r, xorb_false_r.
  destruct o; destruct d; reflexivity.
Qed.

Lemma events_dwrun : forall d cs es psi, (forall e : event A, In e es -> plain e) ->
  events_sem ang (map (modified_event d cs) es) psi = dwrun d cs (map gof es) psi.
Proof.
  intros d cs. induction es as [|e es IH]; intros psi H; [reflexivity|].
  change (events_sem ang (map (modified_event d cs) es) (esem (modified_event d cs e) psi) =
          dwrun d cs (map gof es) (when_all1 cs (gsem d (gof e)) psi)).
  rewrite (modified_sem d cs e psi) by (apply H; simpl; auto).
  apply IH. intros; apply H; simpl; auto.
Qed.

Lemma plain_gates : forall cs es, (forall e : event A, In e es -> plain e /\ event_ok e /\ forall q, In q (qubits_of e) -> ~ In q cs) ->
  Forall gate_wf (map gof es) /\ Forall (gate_off cs) (map gof es).
Proof.
  intros cs es H. split; apply Forall_forall; intros g J; apply in_map_iff in J; destruct J as (e & <- & J);
    destruct (H e J) as (Pl & Oe & Off); destruct e as [o d cs' ts a]; destruct Pl as [-> ->]; simpl in *.
  - destruct Oe as [N Oe]. destruct o as [t|]; simpl; auto. tauto.
  - unfold gate_off. destruct o as [t|]; simpl; auto.
Qed.

Lemma modified_meaning : forall (d : bool) cs es,
  (forall e : event A, In e es -> plain e /\ event_ok e /\ forall q, In q (qubits_of e) -> ~ In q cs) ->
  forall psi, if d
    then events_sem ang (modified_events true cs es) (when_all1 cs (run (map gof es)) psi) = psi /\
         when_all1 cs (run (map gof es)) (events_sem ang (modified_events true cs es) psi) = psi
    else events_sem ang (modified_events false cs es) psi = when_all1 cs (run (map gof es)) psi.
Proof.
  intros d cs es H psi. destruct (plain_gates _ _ H) as [W O].
  assert (Pl : forall e : event A, In e es -> plain e) by (intros; apply H; auto).
  destruct d; unfold modified_events.
  - assert (Pr : forall e : event A, In e (rev es) -> plain e) by (intros e J; apply Pl, in_rev; auto).
    rewrite !events_dwrun by auto. rewrite map_rev, <- !wrun_when by auto.
    apply dwrun_inv; auto.
  - rewrite events_dwrun by auto. apply (wrun_when cs (map gof es) psi W O).
Qed.

Lemma plain_run : forall es psi, (forall e : event A, In e es -> plain e) -> events_sem ang es psi = run (map gof es) psi.
Proof.
  induction es as [|e es IH]; intros psi H; [reflexivity|].
  change (events_sem ang es (esem e psi) = run (map gof es) (gate_sem (gof e) psi)).
  assert (E : esem e psi = gate_sem (gof e) psi).
  { destruct e as [o d cs ts a]. destruct (H _ (or_introl eq_refl)) as [-> ->]. destruct o; reflexivity. }
  rewrite E. apply IH. intros; apply H; simpl; auto.
Qed.

(** ** Order *)

Lemma esem_CU : forall o d cs ts a psi, esem (Ev (Tk o) d cs ts a) psi =
  CU (cs ++ removelast ts) (dg d (op_mat o (angle ang a))) (last ts O) psi.
Proof. intros. rewrite CU_when. destruct d; reflexivity. Qed.

Lemma phase_CU : forall cs k K M t psi, ~ In t cs ->
  when_all1 cs (Sc k) (CU K M t psi) = CU K M t (when_all1 cs (Sc k) psi).
Proof.
  intros cs k K M t psi H. apply functional_extensionality; intro b. unfold when_all1, Sc, CU.
  rewrite !all1_upd by assumption. destruct (all1 cs b), (all1 K b); ring.
Qed.

Lemma tail_in : forall (l : list nat) q, In q (removelast l) -> In q l.
Proof.
  induction l as [|x l IH]; intros q J; [destruct J|]. destruct l as [|y l]; [destruct J|].
  destruct J as [->|J]; [left; auto|right; apply IH; auto].
Qed.
Lemma unitary_nonnil : forall t, is_quantum t = true -> (0 < qubits_in t)%nat.
Proof. intros [] H; simpl in *; try discriminate; lia. Qed.

Lemma event_commute : forall e f psi, event_ok e -> event_ok f -> ~ share e f ->
  esem e (esem f psi) = esem f (esem e psi).
Proof.
  intros [o d cs ts a] [o' d' cs' ts' a'] psi [N H] [N' H'] Sh.
  assert (D : forall q, In q (cs ++ ts) -> In q (cs' ++ ts') -> False).
  { intros q J J'. apply Sh. exists q. auto. }
  assert (L : forall t ts, is_quantum t = true -> length ts = qubits_in t -> In (last ts O) ts).
  { intros t l Q E. apply last_in. intros ->. pose proof (unitary_nonnil t Q). simpl in E. lia. }
  destruct o as [t|], o' as [t'|].
  - destruct H as [Q E], H' as [Q' E']. rewrite !esem_CU.
    pose proof (L _ _ Q E) as La. pose proof (L _ _ Q' E') as La'.
    apply CU_comm_disj.
    + intro X. apply (D (last ts O)); apply in_or_app; right; [auto|rewrite X; auto].
    + intro X. apply (D (last ts O)); [apply in_or_app; auto|]. apply in_app_or in X. apply in_or_app.
      destruct X as [X|X]; auto. right. apply tail_in. auto.
    + intro X. apply (D (last ts' O)); [|apply in_or_app; auto]. apply in_app_or in X. apply in_or_app.
      destruct X as [X|X]; auto. right. apply tail_in. auto.
  - destruct H as [Q E]. rewrite !esem_CU. simpl. symmetry. apply phase_CU.
    intro X. apply (D (last ts O)); apply in_or_app; auto. right. apply (L _ _ Q E).
  - destruct H' as [Q E]. rewrite !esem_CU. simpl. apply phase_CU.
    intro X. apply (D (last ts' O)); apply in_or_app; auto. right. apply (L _ _ Q E).
  - simpl. apply functional_extensionality; intro b. unfold when_all1, Sc. destruct (all1 cs b), (all1 cs' b); ring.
Qed.

Lemma swaps_sem : forall es es', swaps share es es' -> (forall e, In e es -> event_ok e) ->
  forall psi, events_sem ang es psi = events_sem ang es' psi.
Proof.
  intros es es' H. induction H as [l|x a b y l Nr _ IH]; intros Ok' psi; auto.
  rewrite <- IH.
  - unfold events_sem. rewrite !fold_left_app. simpl. rewrite (event_commute b a); auto.
    + apply Ok', in_or_app. simpl; auto.
    + apply Ok', in_or_app. simpl; auto.
    + intros (q & Q1 & Q2). apply Nr. exists q. auto.
  - intros e J. apply Ok'. apply in_app_or in J. apply in_or_app. simpl in *. tauto.
Qed.
End Sem.
