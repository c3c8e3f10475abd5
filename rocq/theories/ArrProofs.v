(** Proofs about the modification of operations that are not gates. *)
From Coq Require Import List Bool Arith Lia Permutation.
From Verif Require Import ResolveModel ResolveSpec ResolveMain UnpackModel UnpackSpec UnpackProofs ArrModel ArrSpec.
Import ListNotations.

Lemma quantum_holds : forall t, quantum t = true <-> holds Qb t.
Proof. intros t. apply contains_holds. Qed.
Lemma quantum_not : forall t, quantum t = false <-> ~ holds Qb t.
Proof. intros t. rewrite <- quantum_holds. destruct (quantum t); split; congruence. Qed.

Lemma all_ports_in : forall e p, In p (all_ports e) <-> at_port e p <> None.
Proof.
  intros e (d, i). unfold all_ports, at_port. rewrite in_app_iff, !in_map_iff. cbn [fst snd].
  assert (K : forall row : list ty, (match nth_error row i with Some t => Some (Val t) | None => if i =? length row then Some Order else None end <> None) <-> i < S (length row)).
  { intros row. destruct (nth_error row i) eqn:N; [assert (i < length row) by (apply nth_error_Some; congruence); split; [lia|discriminate]|].
    apply nth_error_None in N. destruct (Nat.eqb_spec i (length row)); split; try lia; try congruence. }
  destruct d; rewrite K; split.
  - intros [(x & E & I)|(x & E & _)]; [|discriminate]. injection E as <-. apply in_seq in I. lia.
  - intros L. left. exists i. split; [reflexivity|]. apply in_seq. lia.
  - intros [(x & E & _)|(x & E & I)]; [discriminate|]. injection E as <-. apply in_seq in I. lia.
  - intros L. right. exists i. split; [reflexivity|]. apply in_seq. lia.
Qed.
Lemma ports_nodup : forall a n b m, NoDup (map (pair Incoming) (seq a n) ++ map (pair Outgoing) (seq b m)).
Proof.
  intros. assert (K : forall d x k, NoDup (map (pair (B := nat) (d : dir)) (seq x k))).
  { intros d x k. apply FinFun.Injective_map_NoDup; [intros u v E; now injection E|apply seq_NoDup]. }
  assert (G : forall l1 l2 : list port, NoDup l1 -> NoDup l2 -> (forall x, In x l1 -> ~ In x l2) -> NoDup (l1 ++ l2)).
  { induction l1 as [|x l1 IH]; intros l2 N1 N2 D; [exact N2|]. inversion N1; subst. simpl. constructor.
    - rewrite in_app_iff. intros [I|I]; [contradiction|]. apply (D x); simpl; auto.
    - apply IH; auto. intros y I. apply D. now right. }
  apply G; auto. intros x I J. apply in_map_iff in I as (u & <- & _). apply in_map_iff in J as (v & E & _). discriminate.
Qed.
Lemma all_ports_nodup : forall e, NoDup (all_ports e).
Proof. intros. apply ports_nodup. Qed.
Lemma map_pairs_fst : forall (f : port -> port) l, map fst (map (fun p => (p, f p)) l) = l.
Proof. intros. rewrite map_map. simpl. apply map_id. Qed.
Lemma map_pairs_snd : forall (f : port -> port) l, map snd (map (fun p => (p, f p)) l) = map f l.
Proof. intros. rewrite map_map. reflexivity. Qed.
Lemma in_pairs : forall (f : port -> port) l p q, In (p, q) (map (fun p => (p, f p)) l) <-> In p l /\ q = f p.
Proof. intros. rewrite in_map_iff. split; [intros (x & E & I); injection E as <- <-; auto|intros (I & ->); eauto]. Qed.

Lemma same_in : forall e, stands_in false e e (map (fun p => (p, p)) (all_ports e)).
Proof.
  intros e. split.
  - rewrite (map_pairs_fst (fun p => p)). apply all_ports_nodup.
  - rewrite (map_pairs_snd (fun p => p)), map_id. apply all_ports_nodup.
  - intros p t E. rewrite (map_pairs_fst (fun p => p)). apply all_ports_in. congruence.
  - intros p t E. rewrite (map_pairs_snd (fun p => p)), map_id. apply all_ports_in. congruence.
  - intros p q t I E. apply (in_pairs (fun p => p)) in I as (_ & ->). exact E.
  - intros p q t I E HQ. apply (in_pairs (fun p => p)) in I as (_ & ->). tauto.
  - intros p q t I E NQ. apply (in_pairs (fun p => p)) in I as (_ & ->). reflexivity.
Qed.

Lemma reverse_twice : forall p, reverse (reverse p) = p.
Proof. now intros ([], i). Qed.
Lemma at_reverse : forall e e' p, fst (rows e') = snd (rows e) -> snd (rows e') = fst (rows e) -> at_port e' (reverse p) = at_port e p.
Proof. intros e e' ([], i) A B; unfold at_port, reverse; cbn [fst snd]; now rewrite ?A, ?B. Qed.
(** A node with the rows exchanged, when everything that flows holds qubits. *)
Lemma reversed_in : forall e e', fst (rows e') = snd (rows e) -> snd (rows e') = fst (rows e) ->
  Forall (holds Qb) (fst (rows e) ++ snd (rows e)) -> stands_in true e e' (map (fun p => (p, reverse p)) (all_ports e)).
Proof.
  intros e e' A B F. split.
  - rewrite (map_pairs_fst reverse). apply all_ports_nodup.
  - rewrite (map_pairs_snd reverse). apply FinFun.Injective_map_NoDup; [|apply all_ports_nodup]. intros x y E. rewrite <- (reverse_twice x), E. apply reverse_twice.
  - intros p t E. rewrite (map_pairs_fst reverse). apply all_ports_in. congruence.
  - intros p t E. rewrite (map_pairs_snd reverse). apply in_map_iff. exists (reverse p). split; [apply reverse_twice|]. apply all_ports_in.
    rewrite (at_reverse e' e p (eq_sym B) (eq_sym A)). congruence.
  - intros p q t I E. apply (in_pairs reverse) in I as (_ & ->). now rewrite (at_reverse e e' p A B).
  - intros p q t I E HQ. apply (in_pairs reverse) in I as (_ & ->). destruct p as ([], i); simpl; split; discriminate.
  - intros p q t I E NQ. exfalso. apply NQ. rewrite Forall_forall in F. apply F. rewrite in_app_iff. unfold at_port in E.
    destruct (nth_error (match fst p with Incoming => fst (rows e) | Outgoing => snd (rows e) end) (snd p)) as [u|] eqn:N; [|destruct (snd p =? _); discriminate].
    injection E as <-. apply nth_error_In in N. destruct (fst p); auto.
Qed.

(** Numbers of quantum types in rows with the same runs. *)
Lemma runs_concat : forall (l : list ty), concat (runs quantum l) = filter quantum l.
Proof.
  unfold runs. induction l as [|t l IH]; [reflexivity|]. simpl. destruct (quantum t).
  - destruct (split_runs quantum l) as [|x r]; simpl in *; [now rewrite <- IH|]. rewrite <- IH. destruct x; reflexivity.
  - simpl. exact IH.
Qed.
Lemma number_all : forall l : list ty, number (fun t => negb (quantum t)) l + number quantum l = length l.
Proof. unfold number. induction l as [|t l IH]; [reflexivity|]. simpl. destruct (quantum t); simpl; lia. Qed.
Lemma reversible_number : forall ins outs, reversible ins outs -> number quantum ins = number quantum outs.
Proof.
  intros ins outs [R|(others & -> & N)].
  - unfold number. now rewrite <- !runs_concat, R.
  - unfold number. rewrite filter_app, app_length. assert (E : filter quantum others = []); [|rewrite E; simpl; lia].
    induction others as [|t l IH]; [reflexivity|]. simpl. rewrite (N t) by (simpl; auto). apply IH. intros u I. apply N. now right.
Qed.
Lemma other_in : forall label ins outs, reversible ins outs ->
  exists corr, modify_dataflow_op true (EOther label ins outs) = Placed (EOther label ins outs) corr /\
    stands_in true (EOther label ins outs) (EOther label ins outs) corr.
Proof.
  intros label ins outs R. destruct (C29_bijection_pf ty quantum true ins outs 0 0 0) as (m & W & P1 & P2 & N1 & N2).
  exists m. unfold modify_dataflow_op. cbn [rows fst snd]. unfold wire_node_inout. rewrite W. split; [reflexivity|].
  assert (D : forall p p', In (p, p') m -> daggered quantum ins outs 0 0 0 p p') by (apply C29_dagger_partial_pf; assumption).
  pose proof (reversible_number _ _ R) as NE. cbn [Nat.add] in P2. rewrite <- NE, number_all in P2. rewrite NE, number_all in P2.
  assert (VAL : forall p t, at_port (EOther label ins outs) p = Some (Val t) -> type_at ins outs p = Some t).
  { intros (d, i) t E. unfold at_port in E. unfold type_at. cbn [fst snd rows] in *. destruct d.
    - destruct (nth_error ins i); [congruence|]. destruct (i =? length ins); discriminate.
    - destruct (nth_error outs i); [congruence|]. destruct (i =? length outs); discriminate. }
  assert (PRT : forall p t, at_port (EOther label ins outs) p = Some (Val t) -> In p (ports 0 (length ins) 0 (length outs))).
  { intros (d, i) t E. apply VAL in E. unfold ports. rewrite in_app_iff, !in_map_iff. unfold type_at in E. cbn [fst snd] in E.
    assert (L : i < length (match d with Incoming => ins | Outgoing => outs end)) by (apply nth_error_Some; destruct d; congruence).
    destruct d; [left|right]; exists i; (split; [reflexivity|]); apply in_seq; lia. }
  assert (BACK : forall d i t, nth_error (match d with Incoming => ins | Outgoing => outs end) i = Some t -> at_port (EOther label ins outs) (d, i) = Some (Val t)).
  { intros d i t E. unfold at_port. cbn [fst snd rows]. destruct d; now rewrite E. }
  split.
  - exact N1.
  - exact N2.
  - intros p t E. eapply Permutation_in; [symmetry; exact P1|]. eapply PRT; eauto.
  - intros p t E. eapply Permutation_in; [symmetry; exact P2|]. eapply PRT; eauto.
  - intros p q t I E. apply VAL in E. specialize (D _ _ I). destruct p as ([], i); unfold type_at in E; cbn [fst snd] in E; destruct D as (j & u & -> & NU & D); cbn [Nat.add] in *; rewrite NU in E; injection E as <-; destruct (quantum u); [destruct D as (k & -> & (v & _ & A & B & _))| |destruct D as (k & -> & (v & _ & A & B & _))|]; try (subst q); apply BACK; congruence.
  - intros p q t I E HQ. apply VAL in E. apply quantum_holds in HQ. specialize (D _ _ I). destruct p as ([], i); unfold type_at in E; cbn [fst snd] in E; destruct D as (j & u & -> & NU & D); cbn [Nat.add] in *; rewrite NU in E; injection E as <-; rewrite HQ in D; destruct D as (k & -> & _); simpl; split; discriminate.
  - intros p q t I E HQ. apply VAL in E. apply quantum_not in HQ. specialize (D _ _ I). destruct p as ([], i); unfold type_at in E; cbn [fst snd] in E; destruct D as (j & u & -> & NU & D); cbn [Nat.add] in *; rewrite NU in E; injection E as <-; rewrite HQ in D; subst q; reflexivity.
Qed.

Lemma forall_repeat : forall (P : ty -> Prop) t n, P t -> Forall P (repeat t n).
Proof. induction n; simpl; auto. Qed.
Lemma does_reverse : forall e e', 
  match e, e' with
  | EArr k ANew n t, EArr k' AUnpack n' t' | EArr k AUnpack n t, EArr k' ANew n' t' => k = k' /\ n = n' /\ t = t'
  | EConv b to n t, EConv b' to' n' t' => b = b' /\ to' = negb to /\ n = n' /\ t = t'
  | _, _ => False
  end -> forall ins outs, does e ins outs <-> does e' outs ins.
Proof.
  intros [k [] n t|b to n t|l i o] [k' [] n' t'|b' to' n' t'|l' i' o']; try contradiction; simpl.
  - intros (-> & -> & ->) ins outs. tauto.
  - intros (-> & -> & ->) ins outs. tauto.
  - intros (-> & -> & -> & ->) ins outs. split; intros (l & A & B & C); exists l; auto.
Qed.
