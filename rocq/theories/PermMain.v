(** Proofs of the properties of register names and of the order of outputs, C35, C38 and C39. *)
From Coq Require Import List Bool Arith ZArith String Lia.
From Verif Require Import PermModel PermSpec PermProofs.
Import ListNotations.
Local Open Scope string_scope.

Lemma C35_checked_pf :
  forall qubits bits n rs,
    (new_qubits true qubits bits n = Some rs -> List.length rs = n /\ NoDup rs /\ forall r, In r rs -> ~ In r qubits) /\
    (new_bits true qubits bits n = Some rs -> List.length rs = n /\ NoDup rs /\ forall r, In r rs -> ~ In r bits).
Proof.
  intros qubits bits n rs. unfold new_qubits, new_bits. split; intros H.
  - destruct (new_generator true "q" qubits) as [g|] eqn:G; [|discriminate]. eapply fresh_spec; eauto.
  - destruct (new_generator true "c" bits) as [g|] eqn:G; [|discriminate]. eapply fresh_spec; eauto.
Qed.

Lemma C35_partial_pf :
  forall checked qubits bits n,
    (room "q" qubits n -> exists rs, new_qubits checked qubits bits n = Some rs /\ List.length rs = n /\ NoDup rs /\ forall r, In r rs -> ~ In r qubits) /\
    (room "c" bits n -> exists rs, new_bits checked qubits bits n = Some rs /\ List.length rs = n /\ NoDup rs /\ forall r, In r rs -> ~ In r bits).
Proof.
  intros checked qubits bits n. unfold new_qubits, new_bits. split; intros [A B];
    (destruct (generator_works checked _ _ n B A) as (g & rs & G & G' & N & N'); rewrite G; exists rs; split; [exact N|]; eapply fresh_spec; eauto).
Qed.

Lemma C35_wrap_refuted_pf :
  forall qubits bits n rs, (65536 < Z.of_nat n)%Z -> new_qubits false qubits bits n = Some rs -> ~ NoDup rs.
Proof.
  intros qubits bits n rs Hn H N. unfold new_qubits in H. destruct (new_generator false "q" qubits) as [g|] eqn:G; [|discriminate].
  assert (B : (0 <= next_unit g < u16)%Z).
  { unfold new_generator in G. destruct (last_unit _ _ _) as [[x|]|] eqn:L; try discriminate; [|injection G as <-; simpl; unfold u16; lia].
    destruct (last_unit_spec _ _ _ _ L ltac:(discriminate)) as (A & _). specialize (A x eq_refl). unfold succ_u16 in G. destruct (Z.ltb _ _) eqn:Lt; injection G as <-; simpl; [apply Z.ltb_lt in Lt; lia|unfold u16; lia]. }
  assert (L : List.length rs = n) by (destruct (nexts_unchecked n g) as (l & X & Y); congruence).
  assert (I : incl rs (map (fun i => unit_of (register g) (Z.of_nat i)) (seq 0 (Z.to_nat u16)))).
  { intros r Hr. destruct (nexts_range _ _ _ _ H B r Hr) as (i & -> & Hi). apply in_map_iff. exists (Z.to_nat i). rewrite Z2Nat.id by lia. split; [reflexivity|]. apply in_seq. lia. }
  apply (NoDup_incl_length N) in I. rewrite map_length, seq_length in I. unfold u16 in I. lia.
Qed.

Lemma C35_index_refuted_pf :
  exists qubits, NoDup qubits /\ new_qubits false qubits [] 1 = Some [q 0] /\ In (q 0) qubits.
Proof.
  exists [q 0; q (-1)]. split; [repeat constructor; simpl; intuition discriminate|]. split; [reflexivity|left; reflexivity].
Qed.

Lemma C35_kind_refuted_pf :
  forall checked, exists bits, NoDup bits /\ new_qubits checked [] bits 1 = Some [q 0] /\ In (q 0) bits.
Proof.
  intros checked. exists [q 0]. split; [repeat constructor; simpl; auto|]. split; [destruct checked; reflexivity|left; reflexivity].
Qed.

Lemma C38_partial_pf :
  forall outs declared, NoDup declared -> NoDup outs -> incl outs declared ->
  exists perm, compute_final_permutation outs declared = Some perm /\ (describes perm outs declared <-> outs = firstn (List.length outs) declared).
Proof.
  intros outs all N No I. destruct (final_spec outs all N I) as (l & E & _). eexists. split; [exact E|]. split.
  - intros D. apply prefix_eq; [exact (NoDup_incl_length No I)|]. intros k r d Hr Hd. specialize (D k r d Hr Hd). apply in_map_iff in D. destruct D as (x & X & _). congruence.
  - intros Q k r d Hr Hd. assert (r = d) as -> by (eapply prefix_nth; eauto). apply in_map_iff. exists d. split; [reflexivity|]. apply in_or_app. left. eapply nth_error_In; eauto.
Qed.

Lemma C38_refuted_pf :
  exists perm, compute_final_permutation [q 1; q 0] [q 0; q 1] = Some perm /\ ~ describes perm [q 1; q 0] [q 0; q 1].
Proof.
  eexists. split; [vm_compute; reflexivity|]. intros D. specialize (D 0 (q 1) (q 0) eq_refl eq_refl). simpl in D. intuition discriminate.
Qed.

Lemma C38_round_trip_partial_pf :
  forall outs declared, NoDup declared -> NoDup outs -> incl outs declared ->
  exists perm, compute_final_permutation outs declared = Some perm /\ decoded_outputs declared perm (List.length outs) = Some (firstn (List.length outs) declared).
Proof.
  intros outs all N No I. unfold compute_final_permutation. destruct (extend_nodup all outs No) as [A B].
  rewrite pair_up_spec; [|exact N|intros r Hr; apply B in Hr; destruct Hr; auto]. eexists. split; [reflexivity|].
  destruct (identity_known all (extend outs all) N A) as (p & P1 & P2); [intros r; rewrite B; split; [intros [J|J]; auto|auto]|].
  unfold decoded_outputs. rewrite P1, P2. reflexivity.
Qed.

Lemma C39_partial_pf :
  forall tracker perm m, NoDup tracker -> permutes perm tracker -> m <= List.length tracker ->
  (forall k r, nth_error tracker k = Some r -> (In r (map snd perm) <-> k < m)) ->
  exists p l, compute_output_permutation tracker perm = Some p /\ known_pytket_qubits tracker p = Some l /\ reorders perm tracker l.
Proof.
  intros tr perm m N (Ni & No & Same & Inc) Lm P.
  destruct (output_spec tr perm m N No) as (p & l & A & B & C & D & E); [|exact Lm|exact P|].
  - intros i o I. split; [apply Inc; apply (in_map fst) in I; exact I|]. apply Inc, Same. apply (in_map snd) in I. exact I.
  - exists p, l. split; [exact A|]. split; [exact B|]. split; [exact C|]. split; [intros k d r Hk I; exact (D k d r Hk I)|exact E].
Qed.

Lemma C39_total_pf :
  forall tracker perm, NoDup tracker -> permutes perm tracker -> incl tracker (map snd perm) ->
  exists p l, compute_output_permutation tracker perm = Some p /\ known_pytket_qubits tracker p = Some l /\ reorders perm tracker l /\ NoDup l /\ forall r, In r l <-> In r tracker.
Proof.
  intros tr perm N Pm I. destruct (C39_partial_pf tr perm (List.length tr) N Pm (le_n _)) as (p & l & A & B & C).
  { intros k r K. split; [intros _; apply nth_error_Some; congruence|intros _; apply I; eapply nth_error_In; eauto]. }
  exists p, l. split; [exact A|]. split; [exact B|]. split; [exact C|]. destruct C as (L & C & _). destruct Pm as (Ni & No & Same & Inc).
  assert (Q : forall r, In r tr -> In r l).
  { intros r Hr. apply I in Hr. apply Same in Hr. apply in_map_iff in Hr. destruct Hr as ([a d] & E & Hp). simpl in E. subst a.
    assert (J : In d tr) by (apply Inc, Same; apply (in_map snd) in Hp; exact Hp). apply In_nth_error in J. destruct J as [k K]. eapply nth_error_In. exact (C k d r K Hp). }
  assert (Nl : NoDup l) by (apply (NoDup_incl_NoDup N); [lia|exact Q]).
  split; [exact Nl|]. intros r. split; [|apply Q]. apply (NoDup_length_incl N); [lia|exact Q].
Qed.

Lemma C39_refuted_pf :
  let perm := [(q 1, q 2); (q 2, q 1)] in
  NoDup [q 0; q 1; q 2] /\ permutes perm [q 0; q 1; q 2] /\
  exists p, compute_output_permutation [q 0; q 1; q 2] perm = Some p /\ known_pytket_qubits [q 0; q 1; q 2] p = Some [q 2; q 1; q 2] /\ ~ reorders perm [q 0; q 1; q 2] [q 2; q 1; q 2].
Proof.
  cbn zeta. split; [repeat constructor; simpl; intuition discriminate|]. split.
  - split; [repeat constructor; simpl; intuition discriminate|]. split; [repeat constructor; simpl; intuition discriminate|]. split; [intros r; simpl; intuition|]. intros r. simpl. intuition.
  - eexists. split; [vm_compute; reflexivity|]. split; [vm_compute; reflexivity|]. intros (_ & _ & H). specialize (H 0 (q 0) eq_refl). discriminate H. simpl. intuition discriminate.
Qed.

