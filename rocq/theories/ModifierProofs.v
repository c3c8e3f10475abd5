(** Correctness of the controlled-gate synthesis modelled in [ModifierModel]. *)
From Coq Require Import Reals Lra Lia List Bool Arith FunctionalExtensionality.
From Verif Require Import QComplex QState OpsModel GateSpec GateFacts ModifierModel ModifierOps.
Import ListNotations.
Open Scope R_scope.

Arguments run : simpl never.
Arguments op_sem : simpl never.

(** ** Lists *)

Lemma vpop_snoc : forall l x, vpop (l ++ [x]) = Ok (l, x).
Proof. intros; unfold vpop. rewrite rev_app_distr; simpl. rewrite rev_involutive; reflexivity. Qed.

Lemma snoc_inv : forall (l : list nat), l <> [] -> exists l0 x, l = l0 ++ [x].
Proof. intros l Hl; destruct (exists_last Hl) as [l0 [x ->]]; eauto. Qed.

Ltac nd_hyps z :=
  repeat match goal with
  | [ Hn : NoDup _ |- _ ] =>
      pose proof (proj1 (NoDup_count_occ Nat.eq_dec _) Hn z); clear Hn
  end.
Ltac cnt :=
  repeat rewrite count_occ_app in *; cbn [count_occ app] in *;
  repeat rewrite count_occ_app in *; cbn [count_occ app] in *;
  repeat match goal with
  | [ |- context [Nat.eq_dec ?x ?y] ] => destruct (Nat.eq_dec x y)
  | [ Hc : context [Nat.eq_dec ?x ?y] |- _ ] => destruct (Nat.eq_dec x y)
  end; subst; try congruence; try lia.
(** Solve [NoDup l], [~ In x l], [x <> y] from [NoDup] hypotheses. *)
Ltac nd :=
  match goal with
  | [ |- NoDup _ ] =>
      apply (NoDup_count_occ Nat.eq_dec); let z := fresh "z" in intro z; nd_hyps z; cnt
  | [ |- ~ In ?x _ ] =>
      apply (count_occ_not_In Nat.eq_dec); nd_hyps x; cnt
  | [ |- ?x <> ?y ] =>
      let E := fresh in intro E; subst; nd_hyps y; cnt
  end.

Lemma removelast_snoc : forall (l : list nat) x, removelast (l ++ [x]) = l.
Proof. intros; apply removelast_last. Qed.
Lemma last_snoc : forall (l : list nat) x d, last (l ++ [x]) d = x.
Proof. intros; apply last_last. Qed.

Lemma len1 : forall (l : list nat), length l = 1%nat -> exists t, l = [t].
Proof. intros [|t [|]]; simpl; intros; try discriminate; eauto. Qed.
Lemma len2 : forall (l : list nat), length l = 2%nat -> exists c t, l = [c; t].
Proof. intros [|c [|t [|]]]; simpl; intros; try discriminate; eauto. Qed.
Lemma len3 : forall (l : list nat), length l = 3%nat -> exists x y t, l = [x; y; t].
Proof. intros [|x [|y [|t [|]]]]; simpl; intros; try discriminate; eauto. Qed.

Lemma op_sem_snoc : forall op l t a, op_sem op (l ++ [t]) a = CU l (op_mat op a) t.
Proof. intros; unfold op_sem. rewrite removelast_snoc, last_snoc; reflexivity. Qed.

Lemma op_sem1 : forall op t a, op_sem op [t] a = CU [] (op_mat op a) t.
Proof. reflexivity. Qed.

(** ** What the synthesis implements *)

Definition dg (d : bool) (M : mat) : mat := if d then mdag M else M.

(** The matrix that the emitted gates apply to the target. It is the one of the gate
    itself, except for Z under two or more controls and CZ under one or more. *)
Definition impl_mat (op : TketOp) (n : nat) (a : R) : mat :=
  match op with
  | Z => if (2 <=? n)%nat then MRz 1 else MZ
  | CZ => if (1 <=? n)%nat then MRz 1 else MZ
  | _ => op_mat op a
  end.
(** The names on the output ports: the inputs, in order, except for Toffoli. *)
Definition impl_out (op : TketOp) (cs anc ts : list nat) : list nat :=
  match op, cs, anc, ts with
  | Toffoli, _ :: _, [], [x; y; t] => [y; x; t]
  | _, _, _, _ => ts
  end.

Definition Good (op : TketOp) (d : bool) (cs anc ts : list nat) (a : R) (r : mres) : Prop :=
  r_cs r = cs /\ r_anc r = anc /\ r_out r = impl_out op cs anc ts /\
  Forall gate_wf (r_gates r) /\
  forall psi, run (r_gates r) psi =
    CU (cs ++ removelast ts) (dg d (impl_mat op (length cs) a)) (last ts O) psi.

Definition GoodP (d : bool) (cs anc : list nat) (a : R) (r : mres) : Prop :=
  r_cs r = cs /\ r_anc r = anc /\ Forall gate_wf (r_gates r) /\
  forall psi, run (r_gates r) psi = CPh cs (if d then - a else a) psi.

Definition rank (op : TketOp) : nat :=
  match op with
  | Toffoli => 1 | CX => 2 | X => 2 | CRz => 3 | Rz => 4 | CY => 3 | Y => 4 | CZ => 4 | Z => 5
  | Rx => 5 | Ry => 6 | V | Vdg | S | Sdg | T | Tdg => 6 | H => 7 | _ => 1
  end.
Definition need (op : TketOp) (n : nat) : nat := (9 * (n + (qubits_in op - 1)) + rank op)%nat.

Definition PM (f : nat) : Prop :=
  forall op d cs anc ts a,
    is_quantum op = true -> length ts = qubits_in op -> NoDup (cs ++ anc ++ ts) ->
    (need op (length cs) <= f)%nat ->
    exists r, modify_tket_op f op d cs anc ts a = Ok r /\ Good op d cs anc ts a r.
Definition PX (f : nat) : Prop :=
  forall op cs ts,
    (op = X \/ op = CX \/ op = Toffoli) -> length ts = qubits_in op -> NoDup (cs ++ ts) ->
    (3 <= length cs + (qubits_in op - 1))%nat -> cs <> [] ->
    (9 * (length cs + (qubits_in op - 1)) <= f)%nat ->
    exists r, modify_x_chain f op cs [] ts = Ok r /\ Good op false cs [] ts 0 r.
Definition PP (f : nat) : Prop :=
  forall d cs anc a, NoDup (cs ++ anc) -> (9 * length cs + 1 <= f)%nat ->
    exists r, modify_global_phase f d cs anc a = Ok r /\ GoodP d cs anc a r.

(** *** Direct arms *)
Lemma wf1 : forall op t a, is_quantum op = true -> qubits_in op = 1%nat -> gate_wf (G op [t] a).
Proof. intros; simpl; repeat split; auto. constructor; [tauto | constructor]. Qed.

Lemma run1 : forall g psi, run [g] psi = gate_sem g psi.
Proof. reflexivity. Qed.

Lemma direct_good : forall g op d cs anc ts a a',
  ts <> [] -> NoDup (cs ++ anc ++ ts) ->
  is_quantum g = true -> length (cs ++ ts) = qubits_in g ->
  op_mat g a' = dg d (impl_mat op (length cs) a) ->
  impl_out op cs anc ts = ts ->
  Good op d cs anc ts a (MRes [G g (cs ++ ts) a'] cs anc ts).
Proof.
  intros g op d cs anc ts a a' Hts Hnd Hq Hl Hm Ho.
  destruct (snoc_inv ts Hts) as [ts0 [t ->]].
  repeat split; simpl; auto.
  - constructor; [|constructor]. simpl; repeat split; auto. nd.
  - intro psi. rewrite run1; cbn [gate_sem]. rewrite app_assoc, op_sem_snoc, removelast_snoc, last_snoc, Hm.
    reflexivity.
Qed.

(** *** The arms of the match *)
Definition PMop (f : nat) (op : TketOp) : Prop :=
  forall d cs anc ts a, length ts = qubits_in op -> NoDup (cs ++ anc ++ ts) ->
    (need op (length cs) <= f)%nat ->
    exists r, modify_tket_op f op d cs anc ts a = Ok r /\ Good op d cs anc ts a r.

Lemma guard_q : forall op n d, is_quantum op = true -> (negb (n =? 0)%nat || d) && negb (is_quantum op) = false.
Proof. intros op n d ->; simpl; apply andb_false_r. Qed.

Ltac callP IH r E Hr :=
  match goal with
  | [ |- context [modify_tket_op ?f ?op ?d ?cs ?anc ?ts ?a] ] =>
     destruct (IH op d cs anc ts a) as [r [E Hr]];
     [ reflexivity | try reflexivity | try nd | unfold need in *; simpl in *; try lia
     | rewrite E; cbn [obind] ]
  end.

Ltac open_good H Hc Ha Ho Hw Hs :=
  destruct H as (Hc & Ha & Ho & Hw & Hs);
  cbn [impl_out removelast last] in Ho, Hs;
  rewrite ?Hc, ?Ha, ?Ho; cbn [vget nth_error obind tl].

Ltac enter :=
  cbn [modify_tket_op length]; rewrite guard_q by reflexivity.

Lemma nonnil_len : forall (cs : list nat), cs <> [] -> (length cs =? 0)%nat = false.
Proof. intros [|]; simpl; intros; [congruence | reflexivity]. Qed.

Lemma case_Rx : forall f, PM f -> PMop (Datatypes.S f) Rx.
Proof.
  intros f IH d cs anc ts a Hl Hnd Hf.
  destruct (len1 ts Hl) as [t ->].
  destruct cs as [|c0 cs0].
  - enter. eexists; split; [reflexivity|].
    apply (direct_good Rx); auto; try discriminate.
    destruct d; simpl; [symmetry; apply MRx_dag | reflexivity].
  - enter. cbn [direct_gate direct_rot]. set (cs := c0 :: cs0) in *.
    rewrite andb_false_r. cbn [Nat.eqb orb vget nth_error obind].
    callP IH r E Hr. open_good Hr Hc Ha Ho Hw Hs.
    eexists; split; [reflexivity|]. repeat split; cbn [r_cs r_anc r_out r_gates]; auto.
    + constructor; [apply wf1; reflexivity|]. apply Forall_app; split; [assumption|].
      constructor; [apply wf1; reflexivity | constructor].
    + intro psi. rewrite run_cons, run_app, run1, Hs. cbn [gate_sem removelast last].
      rewrite !op_sem1. rewrite !app_nil_r. cbn [op_mat impl_mat].
      rewrite conj_identity; [|nd|apply MH_sq].
      f_equal. destruct d; simpl.
      * rewrite MRz_dag, MRx_dag. apply Rx_decomp.
      * apply Rx_decomp.
Qed.

Lemma sdg_s_conj : forall K M t psi, ~ In t K ->
  op_sem S [t] 0 (CU K M t (op_sem Sdg [t] 0 psi)) = CU K (mmul MS (mmul M (mdag MS))) t psi.
Proof.
  intros. rewrite !op_sem1. cbn [op_mat]. apply conj_identity; [assumption | apply MS_unit1].
Qed.

Lemma case_Ry : forall f, PM f -> PMop (Datatypes.S f) Ry.
Proof.
  intros f IH d cs anc ts a Hl Hnd Hf.
  destruct (len1 ts Hl) as [t ->].
  destruct cs as [|c0 cs0].
  - enter. eexists; split; [reflexivity|].
    apply (direct_good Ry); auto; try discriminate.
    destruct d; simpl; [symmetry; apply MRy_dag | reflexivity].
  - enter. cbn [direct_gate direct_rot]. set (cs := c0 :: cs0) in *.
    rewrite andb_false_r. cbn [Nat.eqb orb vget nth_error obind].
    callP IH r E Hr. open_good Hr Hc Ha Ho Hw Hs.
    eexists; split; [reflexivity|]. repeat split; cbn [r_cs r_anc r_out r_gates]; auto.
    + constructor; [apply wf1; reflexivity|]. apply Forall_app; split; [assumption|].
      constructor; [apply wf1; reflexivity | constructor].
    + intro psi. rewrite run_cons, run_app, run1, Hs. cbn [gate_sem removelast last].
      rewrite !app_nil_r. cbn [op_mat impl_mat].
      rewrite sdg_s_conj by nd.
      f_equal. destruct d; simpl.
      * rewrite MRx_dag, MRy_dag. apply Ry_decomp.
      * apply Ry_decomp.
Qed.

Lemma case_CY : forall f, PM f -> PMop (Datatypes.S f) CY.
Proof.
  intros f IH d cs anc ts a Hl Hnd Hf.
  destruct (len2 ts Hl) as [c [t ->]].
  destruct cs as [|c0 cs0].
  - enter. eexists; split; [reflexivity|].
    apply (direct_good CY); auto; try discriminate.
    destruct d; simpl; [symmetry; apply MY_dag | reflexivity].
  - enter. cbn [direct_gate direct_rot]. set (cs := c0 :: cs0) in *.
    replace (Datatypes.S (length cs0) =? 0)%nat with false by reflexivity.
    replace (op_eqb CY X) with false by reflexivity.
    replace (op_eqb CY CX) with false by reflexivity.
    replace (op_eqb CY Y) with false by reflexivity.
    replace (op_eqb CY Z) with false by reflexivity.
    rewrite !andb_false_r. cbn [orb vget nth_error obind].
    callP IH r E Hr. open_good Hr Hc Ha Ho Hw Hs.
    eexists; split; [reflexivity|]. repeat split; cbn [r_cs r_anc r_out r_gates]; auto.
    + constructor; [apply wf1; reflexivity|]. apply Forall_app; split; [assumption|].
      constructor; [apply wf1; reflexivity | constructor].
    + intro psi. rewrite run_cons, run_app, run1, Hs. cbn [gate_sem removelast last].
      cbn [op_mat impl_mat].
      rewrite sdg_s_conj by nd.
      f_equal. destruct d; simpl.
      * rewrite MX_dag, MY_dag. apply Y_decomp.
      * apply Y_decomp.
Qed.

Lemma case_CRz : forall f, PM f -> PMop (Datatypes.S f) CRz.
Proof.
  intros f IH d cs anc ts a Hl Hnd Hf.
  destruct (len2 ts Hl) as [c [t ->]].
  destruct cs as [|c0 cs0].
  - enter. eexists; split; [reflexivity|].
    apply (direct_good CRz); auto; try discriminate.
    destruct d; simpl; [symmetry; apply MRz_dag | reflexivity].
  - enter. cbn [direct_gate direct_rot]. set (cs := c0 :: cs0) in *.
    rewrite andb_false_r. cbn [Nat.eqb orb vget nth_error obind].
    callP IH r1 Eq1 Hr1. open_good Hr1 Hc1 Ha1 Ho1 Hw1 Hs1.
    callP IH r2 Eq2 Hr2. open_good Hr2 Hc2 Ha2 Ho2 Hw2 Hs2.
    eexists; split; [reflexivity|]. repeat split; cbn [r_cs r_anc r_out r_gates]; auto.
    + constructor; [apply wf1; reflexivity|]. apply Forall_app; split; [assumption|].
      constructor; [apply wf1; reflexivity | assumption].
    + intro psi. rewrite run_cons, run_app, run_cons, Hs1, Hs2. cbn [gate_sem removelast last].
      rewrite !op_sem1. cbn [op_mat impl_mat dg].
      destruct d; cbn [dg].
      * replace (- (a * / 2)) with ((- a) * / 2) by ring.
        replace (a * / 2) with (- ((- a) * / 2)) by ring.
        rewrite crz_identity by nd. rewrite MRz_dag; reflexivity.
      * apply crz_identity; nd.
Qed.

Lemma case_CZ : forall f, PM f -> PMop (Datatypes.S f) CZ.
Proof.
  intros f IH d cs anc ts a Hl Hnd Hf.
  destruct (len2 ts Hl) as [c [t ->]].
  destruct cs as [|c0 cs0].
  - enter. eexists; split; [reflexivity|].
    apply (direct_good CZ); auto; try discriminate.
    destruct d; simpl; [symmetry; apply MZ_dag | reflexivity].
  - enter. cbn [direct_gate direct_rot]. set (cs := c0 :: cs0) in *.
    replace (Datatypes.S (length cs0) =? 0)%nat with false by reflexivity.
    replace (op_eqb CZ X) with false by reflexivity.
    replace (op_eqb CZ CX) with false by reflexivity.
    replace (op_eqb CZ Y) with false by reflexivity.
    replace (op_eqb CZ Z) with false by reflexivity.
    rewrite !andb_false_r. cbn [orb vget nth_error obind].
    callP IH r E Hr. open_good Hr Hc Ha Ho Hw Hs.
    exists r; split; [reflexivity|]. repeat split; auto.
Qed.

Lemma split2 : forall cs : list nat, cs = [] \/ (exists c, cs = [c]) \/
  (exists l x y, cs = (l ++ [x]) ++ [y]).
Proof.
  intro cs. destruct (list_eq_dec Nat.eq_dec cs []) as [->|Hn]; [left; reflexivity|].
  destruct (snoc_inv cs Hn) as [l0 [y ->]].
  destruct (list_eq_dec Nat.eq_dec l0 []) as [->|Hn']; [right; left; exists y; reflexivity|].
  destruct (snoc_inv l0 Hn') as [l1 [x ->]]. right; right; eauto.
Qed.

Lemma case_Rz : forall f, PM f -> PMop (Datatypes.S f) Rz.
Proof.
  intros f IH d cs anc ts a Hl Hnd Hf.
  destruct (len1 ts Hl) as [t ->].
  destruct (split2 cs) as [-> | [[c ->] | [l [x [y ->]]]]].
  - enter. eexists; split; [reflexivity|].
    apply (direct_good Rz); auto; try discriminate.
    destruct d; simpl; [symmetry; apply MRz_dag | reflexivity].
  - enter. eexists; split; [reflexivity|].
    apply (direct_good CRz); auto; try discriminate.
    destruct d; simpl; [symmetry; apply MRz_dag | reflexivity].
  - enter. cbn [direct_gate]. unfold direct_rot.
    rewrite !app_length in *; cbn [length] in *.
    replace (length l + 1 + 1 =? 0)%nat with false by (symmetry; apply Nat.eqb_neq; lia).
    replace (length l + 1 + 1 =? 1)%nat with false by (symmetry; apply Nat.eqb_neq; lia).
    cbn [orb andb]. rewrite vpop_snoc; cbn [obind].
    callP IH r E Hr; [rewrite app_length; simpl; lia|]. open_good Hr Hc Ha Ho Hw Hs.
    eexists; split; [reflexivity|]. repeat split; cbn [r_cs r_anc r_out r_gates]; auto.
    intro psi; rewrite Hs. cbn [removelast last]. rewrite app_nil_r; reflexivity.
Qed.

Lemma case_Y : forall f, PM f -> PMop (Datatypes.S f) Y.
Proof.
  intros f IH d cs anc ts a Hl Hnd Hf.
  destruct (len1 ts Hl) as [t ->].
  destruct (split2 cs) as [-> | [[c ->] | [l [x [y ->]]]]].
  - enter. eexists; split; [reflexivity|].
    apply (direct_good Y); auto; try discriminate.
    destruct d; simpl; [symmetry; apply MY_dag | reflexivity].
  - enter. eexists; split; [reflexivity|].
    apply (direct_good CY); auto; try discriminate.
    destruct d; simpl; [symmetry; apply MY_dag | reflexivity].
  - enter. unfold direct_gate; cbn [direct_rot].
    rewrite !app_length in *; cbn [length] in *.
    replace (length l + 1 + 1 =? 0)%nat with false by (symmetry; apply Nat.eqb_neq; lia).
    replace (length l + 1 + 1 =? 1)%nat with false by (symmetry; apply Nat.eqb_neq; lia).
    replace (op_eqb Y X) with false by reflexivity. rewrite andb_false_r.
    cbn [orb andb]. rewrite vpop_snoc; cbn [obind].
    callP IH r E Hr; [rewrite app_length; simpl; lia|]. open_good Hr Hc Ha Ho Hw Hs.
    eexists; split; [reflexivity|]. repeat split; cbn [r_cs r_anc r_out r_gates]; auto.
    intro psi; rewrite Hs. cbn [removelast last]. rewrite app_nil_r; reflexivity.
Qed.

Lemma case_Z : forall f, PM f -> PMop (Datatypes.S f) Z.
Proof.
  intros f IH d cs anc ts a Hl Hnd Hf.
  destruct (len1 ts Hl) as [t ->].
  destruct (split2 cs) as [-> | [[c ->] | [l [x [y ->]]]]].
  - enter. eexists; split; [reflexivity|].
    apply (direct_good Z); auto; try discriminate.
    destruct d; simpl; [symmetry; apply MZ_dag | reflexivity].
  - enter. eexists; split; [reflexivity|].
    apply (direct_good CZ); auto; try discriminate.
    destruct d; simpl; [symmetry; apply MZ_dag | reflexivity].
  - enter. unfold direct_gate; cbn [direct_rot].
    rewrite !app_length in *; cbn [length] in *.
    replace (length l + 1 + 1 =? 0)%nat with false by (symmetry; apply Nat.eqb_neq; lia).
    replace (length l + 1 + 1 =? 1)%nat with false by (symmetry; apply Nat.eqb_neq; lia).
    replace (op_eqb Z X) with false by reflexivity. rewrite andb_false_r.
    cbn [orb andb]. rewrite vpop_snoc; cbn [obind].
    callP IH r E Hr; [rewrite app_length; simpl; lia|]. open_good Hr Hc Ha Ho Hw Hs.
    eexists; split; [reflexivity|]. repeat split; cbn [r_cs r_anc r_out r_gates]; auto.
    intro psi; rewrite Hs. cbn [removelast last]. rewrite app_nil_r. f_equal. f_equal.
    unfold impl_mat. rewrite !app_length; cbn [length].
    replace (1 <=? length l + 1)%nat with true by (symmetry; apply Nat.leb_le; lia).
    replace (2 <=? length l + 1 + 1)%nat with true by (symmetry; apply Nat.leb_le; lia).
    reflexivity.
Qed.

Lemma op_eqb_XX : op_eqb X X = true. Proof. reflexivity. Qed.

Definition is_phased (op : TketOp) : Prop := In op [T; Tdg; S; Sdg; V; Vdg].

Lemma rot_angle_ok : forall op d, is_phased op -> exists g al,
  rot_angle d op = Some (g, al) /\ (g = Rz \/ g = Rx) /\
  mscale (cexp (PI * al)) (op_mat g (al * 2)) = dg d (op_mat op 0).
Proof.
  intros op d Hop.
  assert (E4 : - - / 4 = / 4) by ring. assert (E8 : - - / 8 = / 8) by ring.
  destruct Hop as [<-|[<-|[<-|[<-|[<-|[<-|[]]]]]]]; destruct d; simpl;
    rewrite ?mdag_invol, ?E4, ?E8;
    do 2 eexists; (split; [reflexivity | split; [auto|]]); simpl;
    auto using S_decomp, T_decomp, V_decomp, Sdg_decomp, Tdg_decomp, Vdg_decomp.
Qed.

Lemma case_phased : forall f op, PM f -> PP f -> is_phased op -> PMop (Datatypes.S f) op.
Proof.
  intros f op IH IP Hop d cs anc ts a Hl Hnd Hf.
  assert (Hq : qubits_in op = 1%nat /\ is_quantum op = true /\ rank op = 6%nat).
  { destruct Hop as [<-|[<-|[<-|[<-|[<-|[<-|[]]]]]]]; auto. }
  destruct Hq as (Hq1 & Hq & Hrk). rewrite Hq1 in Hl.
  destruct (len1 ts Hl) as [t ->].
  destruct cs as [|c0 cs0].
  - cbn [modify_tket_op length]. rewrite guard_q by assumption.
    destruct Hop as [<-|[<-|[<-|[<-|[<-|[<-|[]]]]]]]; eexists; (split; [reflexivity|]);
    apply direct_good; auto; try discriminate; destruct d; simpl; rewrite ?mdag_invol; reflexivity.
  - cbn [modify_tket_op length]. rewrite guard_q by assumption.
    set (cs := c0 :: cs0) in *.
    destruct (rot_angle_ok op d Hop) as (g & al & Hra & Hg & Hm).
    assert (E0 : direct_gate op (Datatypes.S (length cs0)) = false).
    { destruct Hop as [<-|[<-|[<-|[<-|[<-|[<-|[]]]]]]]; simpl; rewrite ?andb_false_r; reflexivity. }
    assert (E1 : direct_rot op (Datatypes.S (length cs0)) = false).
    { destruct Hop as [<-|[<-|[<-|[<-|[<-|[<-|[]]]]]]]; reflexivity. }
    rewrite E0, E1.
    assert (Hgq : qubits_in g = 1%nat /\ is_quantum g = true /\ (rank g <= 5)%nat)
      by (destruct Hg as [-> | ->]; simpl; auto with arith).
    destruct Hgq as (Hgq & Hgi & Hgr).
    assert (HX : exists r, (let! r := modify_tket_op f g false cs anc [t] (al * 2) in
        let! t := vget (r_out r) 0 in
        let! p := modify_global_phase f false (r_cs r) (r_anc r ++ [t]) al in
        let! (anc', t') := vpop (r_anc p) in
        Ok (MRes (r_gates r ++ r_gates p) (r_cs p) anc' (t' :: tl (r_out r)))) = Ok r /\
        Good op d cs anc [t] a r).
    { destruct (IH g false cs anc [t] (al * 2)) as (r & E & Hr);
        [assumption | simpl; auto | nd | unfold need in *; rewrite Hgq, Hq1, Hrk in *; subst cs; cbn [length] in *; lia |].
      rewrite E; cbn [obind].
      destruct Hr as (Hc & Ha & Ho & Hw & Hs).
      assert (Ho' : r_out r = [t]) by (rewrite Ho; destruct Hg as [-> | ->]; reflexivity).
      rewrite Ho', Hc, Ha. cbn [vget nth_error obind tl].
      destruct (IP false cs (anc ++ [t]) al) as (p & Ep & Hp);
        [nd | unfold need in *; rewrite Hq1, Hrk in *; subst cs; cbn [length] in *; lia |].
      rewrite Ep; cbn [obind]. destruct Hp as (Hpc & Hpa & Hpw & Hps).
      rewrite Hpa, vpop_snoc, Hpc; cbn [obind].
      eexists; split; [reflexivity|]. repeat split; cbn [r_cs r_anc r_out r_gates].
      - destruct Hop as [<-|[<-|[<-|[<-|[<-|[<-|[]]]]]]]; reflexivity.
      - apply Forall_app; split; assumption.
      - intro psi. rewrite run_app, Hs, Hps. cbn [removelast last dg].
        rewrite app_nil_r, CPh_CU. f_equal.
        replace (impl_mat g (length cs) (al * 2)) with (op_mat g (al * 2)) by (destruct Hg as [-> | ->]; reflexivity).
        rewrite Hm. destruct Hop as [<-|[<-|[<-|[<-|[<-|[<-|[]]]]]]]; reflexivity. }
    destruct Hop as [<-|[<-|[<-|[<-|[<-|[<-|[]]]]]]]; rewrite Hra; exact HX.
Qed.

Lemma case_H : forall f, PM f -> PMop (Datatypes.S f) H.
Proof.
  intros f IH d cs anc ts a Hl Hnd Hf.
  destruct (len1 ts Hl) as [t ->].
  destruct cs as [|c0 cs0].
  - enter. eexists; split; [reflexivity|].
    apply (direct_good H); auto; try discriminate.
    destruct d; simpl; [symmetry; apply MH_dag | reflexivity].
  - enter. cbn [direct_gate direct_rot]. set (cs := c0 :: cs0) in *.
    replace (Datatypes.S (length cs0) =? 0)%nat with false by reflexivity.
    replace (op_eqb H X) with false by reflexivity.
    replace (op_eqb H CX) with false by reflexivity.
    replace (op_eqb H Y) with false by reflexivity.
    replace (op_eqb H Z) with false by reflexivity.
    rewrite !andb_false_r. cbn [orb].
    destruct d; cbn [negb].
    + callP IH r1 Eq1 Hr1. open_good Hr1 Hc1 Ha1 Ho1 Hw1 Hs1.
      callP IH r2 Eq2 Hr2. open_good Hr2 Hc2 Ha2 Ho2 Hw2 Hs2.
      eexists; split; [reflexivity|]. repeat split; cbn [r_cs r_anc r_out r_gates]; auto.
      * apply Forall_app; split; assumption.
      * intro psi. rewrite run_app, Hs1, Hs2. cbn [removelast last]. rewrite !app_nil_r.
        rewrite CU_comp by nd. cbn [dg impl_mat op_mat]. rewrite <- mdag_mmul, H_decomp. reflexivity.
    + callP IH r1 Eq1 Hr1. open_good Hr1 Hc1 Ha1 Ho1 Hw1 Hs1.
      callP IH r2 Eq2 Hr2. open_good Hr2 Hc2 Ha2 Ho2 Hw2 Hs2.
      eexists; split; [reflexivity|]. repeat split; cbn [r_cs r_anc r_out r_gates]; auto.
      * apply Forall_app; split; assumption.
      * intro psi. rewrite run_app, Hs1, Hs2. cbn [removelast last]. rewrite !app_nil_r.
        rewrite CU_comp by nd. cbn [dg impl_mat op_mat]. rewrite H_decomp. reflexivity.
Qed.

Lemma vget_last2 : forall (l : list nat) x, vget (l ++ [x]) (length l) = Ok x.
Proof. intros; unfold vget. rewrite nth_error_app2, Nat.sub_diag by lia. reflexivity. Qed.

Lemma case_phase : forall f, PM f -> PP f -> PP (Datatypes.S f).
Proof.
  intros f IH IP d cs anc a Hnd Hf.
  destruct (list_eq_dec Nat.eq_dec cs []) as [-> | Hn].
  - cbn [modify_global_phase]. eexists; split; [reflexivity|].
    repeat split; repeat constructor.
  - destruct (snoc_inv cs Hn) as [l0 [c ->]].
    cbn [modify_global_phase].
    replace (match l0 ++ [c] with
             | [] => Ok (MRes [GPhase (if d then - a else a)] (l0 ++ [c]) anc [])
             | _ :: _ => let! (cs0, c) := vpop (l0 ++ [c]) in
      let! p := modify_global_phase f false cs0 (anc ++ [c]) (a * (if d then - / 2 else / 2)) in
      let! (anc, c) := vpop (r_anc p) in
      let! r := modify_tket_op f Rz false (r_cs p) anc [c] (if d then - a else a) in
      let! c := vget (r_out r) 0 in
      Ok (MRes (r_gates p ++ r_gates r) (r_cs r ++ [c]) (r_anc r) [])
             end) with (let! (cs0, c) := vpop (l0 ++ [c]) in
      let! p := modify_global_phase f false cs0 (anc ++ [c]) (a * (if d then - / 2 else / 2)) in
      let! (anc, c) := vpop (r_anc p) in
      let! r := modify_tket_op f Rz false (r_cs p) anc [c] (if d then - a else a) in
      let! c := vget (r_out r) 0 in
      Ok (MRes (r_gates p ++ r_gates r) (r_cs r ++ [c]) (r_anc r) []))
      by (destruct l0; reflexivity).
    rewrite vpop_snoc; cbn [obind]. rewrite app_length in Hf; cbn [length] in Hf.
    destruct (IP false l0 (anc ++ [c]) (a * (if d then - / 2 else / 2))) as (p & Ep & Hp);
      [nd | lia |].
    rewrite Ep; cbn [obind]. destruct Hp as (Hpc & Hpa & Hpw & Hps).
    rewrite Hpa, Hpc, vpop_snoc; cbn [obind].
    callP IH r Er Hr. open_good Hr Hc Ha Ho Hw Hs.
    eexists; split; [reflexivity|]. repeat split; cbn [r_cs r_anc r_out r_gates]; auto.
    + apply Forall_app; split; assumption.
    + intro psi. rewrite run_app, Hps, Hs. rewrite app_nil_r. cbn [dg impl_mat op_mat].
      replace (a * (if d then - / 2 else / 2)) with ((if d then - a else a) * / 2) by (destruct d; ring).
      apply CPh_step. nd.
Qed.

Lemma all1_perm : forall cs ds b, (forall x, In x cs <-> In x ds) -> all1 cs b = all1 ds b.
Proof.
  intros cs ds b Hp. unfold all1.
  destruct (forallb b cs) eqn:E1; destruct (forallb b ds) eqn:E2; auto; exfalso.
  - rewrite forallb_forall in E1. assert (forallb b ds = true) by (apply forallb_forall; intros; apply E1, Hp; assumption). congruence.
  - rewrite forallb_forall in E2. assert (forallb b cs = true) by (apply forallb_forall; intros; apply E2, Hp; assumption). congruence.
Qed.

Lemma CU_same_ctrl : forall cs ds M t psi, (forall x, In x cs <-> In x ds) ->
  CU cs M t psi = CU ds M t psi.
Proof. intros; apply CU_perm_ctrl; intro; apply all1_perm; assumption. Qed.

Ltac same_ctrl :=
  let x := fresh in intro x; repeat rewrite in_app_iff; cbn [In]; repeat rewrite in_app_iff; cbn [In]; tauto.

Lemma case_CX : forall f, PM f -> PX f -> PMop (Datatypes.S f) CX.
Proof.
  intros f IH IX d cs anc ts a Hl Hnd Hf.
  destruct (len2 ts Hl) as [c [t ->]].
  destruct (split2 cs) as [-> | [[c0 ->] | [l [x [y ->]]]]].
  - enter. eexists; split; [reflexivity|].
    apply (direct_good CX); auto; try discriminate.
    destruct d; simpl; [symmetry; apply MX_dag | reflexivity].
  - enter. eexists; split; [reflexivity|].
    apply (direct_good Toffoli); auto; try discriminate.
    destruct d; simpl; [symmetry; apply MX_dag | reflexivity].
  - enter. unfold direct_gate; cbn [direct_rot].
    set (n := length ((l ++ [x]) ++ [y])) in *.
    assert (Hn : n = (length l + 2)%nat) by (unfold n; rewrite !app_length; simpl; lia).
    replace (n =? 0)%nat with false by (symmetry; apply Nat.eqb_neq; lia).
    replace (n =? 1)%nat with false by (symmetry; apply Nat.eqb_neq; lia).
    replace (op_eqb CX X) with false by reflexivity. rewrite andb_false_r.
    cbn [orb andb].
    destruct anc as [|a0 anc0]; cbn [is_nil negb].
    + destruct (IX CX ((l ++ [x]) ++ [y]) [c; t]) as (r & Er & Hr); auto.
      * fold n; simpl; lia.
      * destruct (l ++ [x]); discriminate.
      * fold n; unfold need in Hf; simpl in Hf; simpl; lia.
      * exists r; split; [exact Er|].
        destruct Hr as (Hc & Ha & Ho & Hw & Hs). repeat split; auto.
        intro psi; rewrite Hs. destruct d; simpl; rewrite ?MX_dag; reflexivity.
    + rewrite vpop_snoc; cbn [obind]. set (anc := a0 :: anc0) in *.
      unfold need in Hf; simpl in Hf.
      destruct (IH Toffoli d (l ++ [x]) anc [y; c; t] 0) as (r & Er & Hr);
        [reflexivity | reflexivity | nd | unfold need; rewrite app_length; simpl; lia |].
      rewrite Er; cbn [obind]. destruct Hr as (Hc & Ha & Ho & Hw & Hs).
      assert (Ho' : r_out r = [y; c; t]) by (rewrite Ho; destruct l; reflexivity).
      rewrite Ho', Hc, Ha. cbn [vget nth_error obind tl].
      eexists; split; [reflexivity|]. repeat split; cbn [r_cs r_anc r_out r_gates]; auto.
      intro psi; rewrite Hs. cbn [removelast last dg impl_mat op_mat].
      apply CU_same_ctrl; same_ctrl.
Qed.

Lemma case_X : forall f, PM f -> PX f -> PMop (Datatypes.S f) X.
Proof.
  intros f IH IX d cs anc ts a Hl Hnd Hf.
  destruct (len1 ts Hl) as [t ->].
  destruct (split2 cs) as [-> | [[c0 ->] | [l [x [y ->]]]]].
  - enter. eexists; split; [reflexivity|].
    apply (direct_good X); auto; try discriminate.
    destruct d; simpl; [symmetry; apply MX_dag | reflexivity].
  - enter. eexists; split; [reflexivity|].
    apply (direct_good CX); auto; try discriminate.
    destruct d; simpl; [symmetry; apply MX_dag | reflexivity].
  - destruct (list_eq_dec Nat.eq_dec l []) as [-> | Hln].
    + enter. eexists; split; [reflexivity|].
      apply (direct_good Toffoli); auto; try discriminate.
      destruct d; simpl; [symmetry; apply MX_dag | reflexivity].
    + enter. unfold direct_gate; cbn [direct_rot].
      set (n := length ((l ++ [x]) ++ [y])) in *.
      assert (Hn : n = (length l + 2)%nat) by (unfold n; rewrite !app_length; simpl; lia).
      assert (Hll : (1 <= length l)%nat) by (destruct l; [congruence | simpl; lia]).
      replace (n =? 0)%nat with false by (symmetry; apply Nat.eqb_neq; lia).
      replace (n =? 1)%nat with false by (symmetry; apply Nat.eqb_neq; lia).
      replace (n <? 3)%nat with false by (symmetry; apply Nat.ltb_ge; lia).
      cbn [orb andb].
      destruct anc as [|a0 anc0]; cbn [is_nil negb].
      * destruct (IX X ((l ++ [x]) ++ [y]) [t]) as (r & Er & Hr); auto.
        -- fold n; simpl; lia.
        -- destruct (l ++ [x]); discriminate.
        -- fold n; unfold need in Hf; simpl in Hf; simpl; lia.
        -- exists r; split; [exact Er|].
           destruct Hr as (Hc & Ha & Ho & Hw & Hs). repeat split; auto.
           intro psi; rewrite Hs. destruct d; simpl; rewrite ?MX_dag; reflexivity.
      * rewrite vpop_snoc; cbn [obind]. rewrite vpop_snoc; cbn [obind]. set (anc := a0 :: anc0) in *.
        unfold need in Hf; simpl in Hf.
        destruct (IH Toffoli d l anc [x; y; t] 0) as (r & Er & Hr);
          [reflexivity | reflexivity | nd | unfold need; simpl; lia |].
        rewrite Er; cbn [obind]. destruct Hr as (Hc & Ha & Ho & Hw & Hs).
        assert (Ho' : r_out r = [x; y; t]) by (rewrite Ho; destruct l; reflexivity).
        rewrite Ho', Hc, Ha. cbn [vget nth_error obind tl].
        eexists; split; [reflexivity|]. repeat split; cbn [r_cs r_anc r_out r_gates]; auto.
        -- rewrite <- app_assoc; reflexivity.
        -- intro psi; rewrite Hs. cbn [removelast last dg impl_mat op_mat].
           apply CU_same_ctrl; same_ctrl.
Qed.

Lemma case_Toffoli : forall f, PM f -> PX f -> PMop (Datatypes.S f) Toffoli.
Proof.
  intros f IH IX d cs anc ts a Hl Hnd Hf.
  destruct (len3 ts Hl) as [x [y [t ->]]].
  destruct (list_eq_dec Nat.eq_dec cs []) as [-> | Hcs].
  - enter. eexists; split; [reflexivity|].
    apply (direct_good Toffoli); auto; try discriminate.
    destruct d; simpl; [symmetry; apply MX_dag | reflexivity].
  - enter. unfold direct_gate; cbn [direct_rot].
    assert (Hl1 : (1 <= length cs)%nat) by (destruct cs; [congruence | simpl; lia]).
    replace (length cs =? 0)%nat with false by (symmetry; apply Nat.eqb_neq; lia).
    replace (op_eqb Toffoli X) with false by reflexivity.
    replace (op_eqb Toffoli CX) with false by reflexivity.
    replace (op_eqb Toffoli Y) with false by reflexivity.
    replace (op_eqb Toffoli Z) with false by reflexivity.
    rewrite !andb_false_r. cbn [orb]. rewrite ?andb_false_r.
    unfold need in Hf; simpl in Hf.
    destruct (list_eq_dec Nat.eq_dec anc []) as [-> | Hanc]; cbn [is_nil negb].
    + destruct (IX Toffoli cs [x; y; t]) as (r & Er & Hr); auto.
      * simpl; lia.
      * simpl; lia.
      * exists r; split; [exact Er|].
        destruct Hr as (Hc & Ha & Ho & Hw & Hs). repeat split; auto.
        intro psi; rewrite Hs. destruct d; simpl; rewrite ?MX_dag; reflexivity.
    + destruct (snoc_inv anc Hanc) as [anc0 [a0 ->]].
      replace (negb (is_nil (anc0 ++ [a0]))) with true by (destruct anc0; reflexivity).
      rewrite vpop_snoc; cbn [obind vget nth_error].
      set (n := (length cs / 2)%nat).
      assert (Hn : (n < length cs)%nat) by (apply Nat.div_lt; lia).
      set (cs1 := firstn n cs). set (cs2 := skipn n cs).
      assert (Hc12 : cs = cs1 ++ cs2) by (symmetry; apply firstn_skipn).
      assert (Hl2 : length cs1 = n) by (apply firstn_length_le; lia).
      assert (Hl3 : length cs2 = (length cs - n)%nat) by apply skipn_length.
      clearbody cs1 cs2. rewrite Hc12 in Hnd.
      destruct (snoc_inv cs2) as [cs2i [l ->]]; [intros ->; simpl in Hl3; lia|].
      rewrite vpop_snoc; cbn [obind].
      destruct (IH Toffoli false cs1 (anc0 ++ [l]) [x; y; a0] 0) as (r1 & Eq1 & Hr1);
        [reflexivity | reflexivity | nd | unfold need; simpl; lia |].
      rewrite Eq1; cbn [obind]. destruct Hr1 as (Hc1 & Ha1 & Ho1 & Hw1 & Hs1).
      assert (Ho1' : r_out r1 = [x; y; a0]) by (rewrite Ho1; destruct cs1, anc0; reflexivity).
      rewrite Ho1', Hc1, Ha1, vpop_snoc. cbn [vget nth_error obind].
      destruct (IH CX false (cs2i ++ [l]) (anc0 ++ [x]) [a0; t] 0) as (r2 & Eq2 & Hr2);
        [reflexivity | reflexivity | nd | unfold need; simpl; lia |].
      rewrite Eq2; cbn [obind]. destruct Hr2 as (Hc2 & Ha2 & Ho2 & Hw2 & Hs2).
      cbn [impl_out] in Ho2.
      rewrite Ho2, Hc2, Ha2, vpop_snoc. cbn [vget nth_error obind].
      rewrite vpop_snoc; cbn [obind]. rewrite Eq1; cbn [obind].
      rewrite Ho1', Hc1, Ha1, vpop_snoc. cbn [vget nth_error obind].
      rewrite Eq2; cbn [obind].
      rewrite Ho2, Hc2, Ha2, vpop_snoc. cbn [vget nth_error obind].
      eexists; split; [reflexivity|]. repeat split; cbn [r_cs r_anc r_out r_gates]; auto.
      * destruct cs, anc0; reflexivity.
      * rewrite !Forall_app; tauto.
      * intro psi. rewrite !run_app, !Hs1, !Hs2. cbn [removelast last dg impl_mat op_mat].
        rewrite toffoli_split; [| nd | nd | nd | nd | nd ].
        replace (dg d MX) with MX by (destruct d; simpl; rewrite ?MX_dag; reflexivity).
        rewrite Hc12. apply CU_same_ctrl; same_ctrl.
Qed.

Lemma case_xchain : forall f, PM f -> PX (Datatypes.S f).
Proof.
  intros f IH op cs ts Hop Hl Hnd Hn Hcs Hf.
  destruct (snoc_inv cs Hcs) as [cs0 [c ->]].
  rewrite app_length in *; cbn [length] in *.
  assert (Hop' : exists gc gcs t, ts = gcs ++ [t] /\ length gcs = gc /\ is_quantum op = true /\ (rank op <= 2)%nat
     /\ qubits_in op = Datatypes.S gc /\ (gc <= 2)%nat
     /\ (match op with X => 0 | CX => 1 | _ => 2 end)%nat = gc
     /\ op_mat op 0 = MX
     /\ (forall n, impl_mat op n 0 = MX)
     /\ (forall k an w, an <> [] -> impl_out op k an w = w)
     /\ impl_out op (cs0 ++ [c]) [] (gcs ++ [t]) = rev gcs ++ [t]).
  { destruct Hop as [-> | [-> | ->]].
    - destruct (len1 ts Hl) as [t ->]. exists 0%nat, [], t. repeat split; auto.
    - destruct (len2 ts Hl) as [g [t ->]]. exists 1%nat, [g], t. repeat split; auto.
    - destruct (len3 ts Hl) as [x [y [t ->]]]. exists 2%nat, [x; y], t. repeat split; auto.
      + intros [|] [|] [|? [|? [|? [|]]]]; intros; try reflexivity; congruence.
      + destruct cs0; reflexivity. }
  destruct Hop' as (gc & gcs & t & -> & Hgl & Hq & Hrk & Hqi & Hg2 & Hgc & Hm & Him & Hio & Hio').
  cbn [modify_x_chain]. rewrite Hgc.
  rewrite Hqi in *.
  replace (vget (gcs ++ [t]) gc) with (@Ok nat t) by (rewrite <- Hgl; symmetry; apply vget_last2).
  replace (firstn gc (gcs ++ [t])) with gcs
    by (rewrite <- Hgl, firstn_app, Nat.sub_diag, firstn_all, app_nil_r; reflexivity).
  cbn [obind]. rewrite vpop_snoc; cbn [obind].
  (* CV *)
  callP IH r1 Eq1 Hr1. open_good Hr1 Hc1 Ha1 Ho1 Hw1 Hs1.
  cbn [app].
  (* CnX *)
  destruct (IH op false cs0 [t] (gcs ++ [c]) 0) as (r2 & Eq2 & Hr2);
    [assumption | rewrite app_length, Hgl, Hqi; simpl; lia | nd | unfold need; rewrite Hqi; simpl in *; lia |].
  destruct Hr2 as (Hc2 & Ha2 & Ho2 & Hw2 & Hs2).
  rewrite Hio in Ho2 by discriminate.
  rewrite Eq2; cbn [obind]. rewrite Ho2, Hc2, Ha2.
  change [t] with ([] ++ [t]) at 1. rewrite vpop_snoc; cbn [obind].
  replace (vget (gcs ++ [c]) gc) with (@Ok nat c) by (rewrite <- Hgl; symmetry; apply vget_last2).
  replace (firstn gc (gcs ++ [c])) with gcs
    by (rewrite <- Hgl, firstn_app, Nat.sub_diag, firstn_all, app_nil_r; reflexivity).
  cbn [obind].
  (* CVdg *)
  callP IH r3 Eq3 Hr3. open_good Hr3 Hc3 Ha3 Ho3 Hw3 Hs3.
  cbn [app]. rewrite Eq2; cbn [obind]. rewrite Ho2, Hc2, Ha2.
  change [t] with ([] ++ [t]) at 1. rewrite vpop_snoc; cbn [obind].
  replace (vget (gcs ++ [c]) gc) with (@Ok nat c) by (rewrite <- Hgl; symmetry; apply vget_last2).
  replace (firstn gc (gcs ++ [c])) with gcs
    by (rewrite <- Hgl, firstn_app, Nat.sub_diag, firstn_all, app_nil_r; reflexivity).
  cbn [obind app].
  (* CnV *)
  destruct (IH V false (cs0 ++ gcs) [c] [t] 0) as (r5 & Eq5 & Hr5);
    [reflexivity | reflexivity | nd | unfold need; rewrite app_length; simpl in *; lia |].
  destruct Hr5 as (Hc5 & Ha5 & Ho5 & Hw5 & Hs5). cbn [impl_out] in Ho5.
  rewrite Eq5; cbn [obind]. rewrite Ha5, Ho5, Hc5.
  change [c] with ([] ++ [c]) at 1. rewrite vpop_snoc; cbn [obind vget nth_error].
  replace (length (cs0 ++ gcs) - gc)%nat with (length cs0) by (rewrite app_length; lia).
  replace (firstn (length cs0) (cs0 ++ gcs)) with cs0
    by (rewrite firstn_app, Nat.sub_diag, firstn_all, app_nil_r; reflexivity).
  replace (skipn (length cs0) (cs0 ++ gcs)) with gcs
    by (rewrite skipn_app, Nat.sub_diag, skipn_all; reflexivity).
  eexists; split; [reflexivity|]. repeat split; cbn [r_cs r_anc r_out r_gates]; auto.
  - rewrite !Forall_app; tauto.
  - intro psi. rewrite !run_app, Hs1, Hs3, !Hs2, Hs5.
    rewrite !removelast_snoc, !last_snoc, !Him. cbn [removelast last dg impl_mat op_mat].
    rewrite !app_nil_r. rewrite barenco; [| nd | nd | nd].
    apply CU_same_ctrl; same_ctrl.
Qed.

Theorem synthesis_correct : forall f, PM f /\ PX f /\ PP f.
Proof.
  induction f as [|f [IH [IX IP]]].
  - repeat split.
    + intros op d cs anc ts a Hq Hl Hnd Hf. exfalso. unfold need in Hf.
      assert (Hr : (1 <= rank op)%nat) by (destruct op; simpl; lia). lia.
    + intros op cs ts Hop Hl Hnd Hn Hcs Hf. lia.
    + intros d cs anc a Hnd Hf. lia.
  - repeat split.
    + assert (HP : forall op, is_quantum op = true -> PMop (Datatypes.S f) op).
      { intros [] Hq; try discriminate Hq;
          auto using case_H, case_CX, case_CY, case_CZ, case_CRz, case_X, case_Y, case_Z, case_Rx, case_Ry, case_Rz, case_Toffoli;
          apply case_phased; auto; unfold is_phased; simpl; tauto. }
      intros op d cs anc ts a Hq Hl Hnd Hf. apply HP; assumption.
    + apply case_xchain; assumption.
    + apply case_phase; assumption.
Qed.
