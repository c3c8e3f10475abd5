(** Lemmas that connect the code of programs with its parameters and the bookkeeping. *)
From Coq Require Import List Arith Bool ZArith String Permutation Lia.
From Verif Require Import GlobModel GlobSpec GlobProofs LlvmModel LlvmSpec LlvmProofs LlvmSafe.
Import ListNotations.

Lemma lookup_params : forall X (xs : list X) w, lookup (params xs) w = nth_error xs w.
Proof.
  intros X xs w. unfold params.
  assert (G : forall (xs : list X) k w, lookup (combine (seq k (List.length xs)) xs) w
              = if w <? k then None else nth_error xs (w - k)).
  { clear. induction xs as [|x xs IH]; simpl; intros k w.
    - destruct (w <? k); auto. now destruct (w - k).
    - destruct (Nat.eqb_spec k w) as [->|N].
      + rewrite Nat.ltb_irrefl, Nat.sub_diag. reflexivity.
      + rewrite IH. destruct (Nat.ltb_spec w k), (Nat.ltb_spec w (Datatypes.S k)); try lia; auto.
        replace (w - k) with (Datatypes.S (w - Datatypes.S k)) by lia. reflexivity. }
  rewrite G. simpl. now rewrite Nat.sub_0_r.
Qed.
Lemma nth_error_seq : forall k n w, w < n -> nth_error (seq k n) w = Some (k + w).
Proof.
  intros k n. revert k. induction n as [|n IH]; simpl; intros k w L; [lia|].
  destruct w; simpl; [f_equal; lia|]. rewrite IH by lia. f_equal. lia.
Qed.
Lemma lookup_param_regs : forall k w, w < k -> lookup (param_regs k) w = Some (OReg w).
Proof.
  intros k w L. unfold param_regs. rewrite lookup_params.
  apply map_nth_error. rewrite nth_error_seq; auto.
Qed.

Lemma params_types : forall vs, types_of (params vs) (params (map ty_of vs)).
Proof.
  intros vs w. rewrite !lookup_params. revert w. induction vs as [|v vs IH]; intros [|w]; simpl; auto.
Qed.
Lemma params_covers : forall ts, covers (List.length ts) (params ts) (param_regs (List.length ts)).
Proof.
  intros ts w t H. rewrite lookup_params in H.
  assert (L : w < List.length ts) by (apply nth_error_Some; congruence).
  exists (OReg w). split; [now apply lookup_param_regs | exact L].
Qed.
Lemma params_reps : forall m s vs, (forall i v, nth_error vs i = Some v -> s i = rep v) ->
  reps m s (params vs) (param_regs (List.length vs)).
Proof.
  intros m s vs H w v E. rewrite lookup_params in E.
  assert (L : w < List.length vs) by (apply nth_error_Some; congruence).
  exists (OReg w). split; [now apply lookup_param_regs|]. simpl. now rewrite (H _ _ E).
Qed.
Lemma params_nodup : forall X (xs : list X), NoDup (map fst (params xs)).
Proof. intros. unfold params. rewrite combine_fst; [apply seq_NoDup | apply seq_length]. Qed.
Lemma params_agree : forall vs, agree (params vs) (params (map ty_of vs)).
Proof.
  intros vs w t H. rewrite (params_types vs w) in H. destruct (lookup (params vs) w) as [v|]; try discriminate.
  injection H as <-. eauto.
Qed.

Lemma no_max_watched : forall D (M : machine D), no_max M -> no_max (watched M).
Proof.
  intros D M N [d L] [d' L'] q H. simpl in H. unfold both in H. simpl in H.
  destruct (m_alloc M d) as [d1 o] eqn:E. injection H as <- <- ->. eapply N; eauto.
Qed.

(** *** The bookkeeping changes nothing *)
Lemma abi_watched : forall D (M : machine D) f vs d L,
  match abi M f vs d, abi (watched M) f vs (d, L) with
  | Some (d', v), Some (e, v') => fst e = d' /\ v' = v
  | None, None => True
  | _, _ => False
  end.
Proof.
  intros D M f vs d L. destruct f; simpl; unfold both;
    repeat (match goal with |- context [match ?x with _ => _ end] => inner x end; simpl; unfold both; auto).
Qed.
Definition same_outcome {D} (a : option (outcome D regs)) (b : option (outcome (D * ledger) regs)) : Prop :=
  match a, b with
  | Some (Going s d), Some (Going s' e) => s' = s /\ fst e = d
  | Some (Ended d), Some (Ended e) => fst e = d
  | None, None => True
  | _, _ => False
  end.
Lemma step_watched : forall D (M : machine D) fadd m i s d L,
  same_outcome (step D (abi M) fadd m i s d) (step _ (abi (watched M)) fadd m i s (d, L)).
Proof.
  intros D M fadd m i s d L. destruct i; simpl; unfold panic;
    try (repeat (match goal with |- context [match eval ?a ?b ?c with _ => _ end] => destruct (eval a b c) as [[]|] end;
                 simpl; auto); fail).
  - destruct (evals m s args) as [vs|]; simpl; auto. pose proof (abi_watched D M f vs d L) as A.
    destruct (abi M f vs d) as [[d' v]|], (abi (watched M) f vs (d, L)) as [[e v']|]; try contradiction; simpl; auto.
    destruct A as [A ->]. auto.
  - destruct (eval m s a) as [v|]; simpl; auto. destruct v as [| | | |[z|]| | | |]; simpl; auto.
  - destruct (eval m s a) as [v|]; simpl; auto. destruct v as [| | | | | | | |[|b s0]]; simpl; auto.
  - destruct (eval m s c) as [v|]; simpl; auto. destruct v as [|[]| | | | | | |]; simpl; auto.
    + destruct (evals m s args) as [vs|]; simpl; auto. pose proof (abi_watched D M f vs d L) as A.
      destruct (abi M f vs d) as [[d' v]|], (abi (watched M) f vs (d, L)) as [[e v']|]; try contradiction; simpl; auto.
      destruct A as [A _]. auto.
    + destruct (evals m s args) as [vs|]; simpl; auto.
  - destruct (eval m s c) as [v|]; simpl; auto. destruct v as [|[]| | | | | | |]; simpl; auto.
Qed.
Lemma exec_watched : forall D (M : machine D) fadd m is s d L,
  same_outcome (exec D (abi M) fadd m is s d) (exec _ (abi (watched M)) fadd m is s (d, L)).
Proof.
  induction is as [|i is IH]; simpl; intros s d L; auto.
  pose proof (step_watched D M fadd m i s d L) as H.
  destruct (step D (abi M) fadd m i s d) as [[s1 d1|d1]|],
           (step _ (abi (watched M)) fadd m i s (d, L)) as [[s2 [d2 L2]|e]|]; simpl in H; try contradiction; auto.
  destruct H as [-> <-]. apply IH.
Qed.

(** *** Rotations *)
Definition rot_ok (v : wval) : Prop :=
  match v with WRot f | WOptR (Some f) => finite f = true | _ => True end.
Lemma mean_rot : forall D (M : machine D) fadd o vs d ws d',
  o <> TAdd -> Forall rot_ok vs -> mean D M fadd o vs d = Some (Go ws d') -> Forall rot_ok ws.
Proof.
  intros D M fadd o vs d ws d' NA F H.
  destruct o; cbn in H;
    repeat (match type of H with context [match ?x with _ => _ end] => inner x end;
            cbn in H; try discriminate H);
    try congruence; try (injection H as <- <-); try (inversion H; subst);
    repeat constructor; auto; simpl; try (rewrite Heqb; exact I); try assumption.
Qed.
