(** Proofs of the properties of the modification of operations on arrays and of other operations, C90 and C91. *)
From Coq Require Import List Bool Arith Lia Permutation.
From Verif Require Import ResolveModel ResolveSpec UnpackModel UnpackSpec ArrModel ArrSpec ArrProofs.
Import ListNotations.

Lemma C90_arrays_partial_pf :
  forall k b to n t controls, holds Qb t ->
    forall e, e = EArr k ANew n t \/ e = EArr k AUnpack n t \/ e = EConv b to n t ->
    exists new corr, modify_ext true controls e = (Placed new corr, controls) /\ stands_in true e new corr /\
      (forall ins outs, does e ins outs <-> does new outs ins) /\
      exists corr', modify_ext true controls new = (Placed e corr', controls).
Proof.
  intros k b to n t controls HQ e [->|[->| ->]].
  - exists (EArr k AUnpack n t). eexists. split; [reflexivity|]. split; [|split; [apply does_reverse; auto|eexists; reflexivity]].
    apply reversed_in; [reflexivity|reflexivity|]. simpl. apply Forall_app. split; [now apply forall_repeat|]. constructor; [now apply holds_arr|constructor].
  - exists (EArr k ANew n t). eexists. split; [reflexivity|]. split; [|split; [apply does_reverse; auto|eexists; reflexivity]].
    apply reversed_in; [reflexivity|reflexivity|]. simpl. constructor; [now apply holds_arr|now apply forall_repeat].
  - exists (EConv b (negb to) n t). eexists. split; [destruct to; reflexivity|].
    split; [|split; [apply does_reverse; auto|eexists; unfold modify_ext; simpl; rewrite negb_involutive; reflexivity]].
    apply reversed_in; [destruct to; reflexivity|destruct to; reflexivity|]. destruct to; simpl; (constructor; [now apply holds_arr|constructor; [now apply holds_arr|constructor]]).
Qed.

Lemma C90_others_partial_pf :
  forall label ins outs controls, reversible ins outs ->
    exists corr, modify_ext true controls (EOther label ins outs) = (Placed (EOther label ins outs) corr, controls) /\
      stands_in true (EOther label ins outs) (EOther label ins outs) corr.
Proof.
 intros label ins outs controls R. destruct (other_in label ins outs R) as (corr & E & S_). exists corr. split; [|exact S_]. unfold modify_ext. simpl. now rewrite E. Qed.

Lemma C90_swap_refuted_pf :
  forall k n t controls, exists corr, modify_ext true controls (EArr k ASwap n t) = (Placed (EArr k ASwap n t) corr, controls) /\
    In ((Incoming, 1), (Outgoing, 1)) corr /\ at_port (EArr k ASwap n t) (Incoming, 1) = Some (Val usize) /\
    at_port (EArr k ASwap n t) (Outgoing, 1) = Some Order /\
    In ((Incoming, 2), (Outgoing, 2)) corr /\ at_port (EArr k ASwap n t) (Outgoing, 2) = None /\
    ~ stands_in true (EArr k ASwap n t) (EArr k ASwap n t) corr.
Proof.
  intros. eexists. split; [reflexivity|]. split; [simpl; auto|]. split; [reflexivity|]. split; [reflexivity|]. split; [simpl; auto 8|]. split; [reflexivity|].
  intros SI. pose proof (si_type _ _ _ _ SI (Incoming, 1) (Outgoing, 1) usize ltac:(simpl; auto) eq_refl) as K. discriminate K.
Qed.

Lemma C90_classical_refuted_pf :
  forall k n t controls, ~ holds Qb t -> 0 < n ->
    exists new corr, modify_ext true controls (EArr k ANew n t) = (Placed new corr, controls) /\
      ~ stands_in true (EArr k ANew n t) new corr /\
      In ((Incoming, 0), (Outgoing, 0)) corr /\ forall i, connect (Outgoing, 0) (Outgoing, i) = None.
Proof.
  intros k n t controls NQ L. exists (EArr k AUnpack n t). eexists. split; [reflexivity|].
  assert (I : In ((Incoming, 0), (Outgoing, 0)) (map (fun p => (p, reverse p)) (all_ports (EArr k ANew n t)))).
  { apply (in_pairs reverse). split; [|reflexivity]. apply all_ports_in. unfold at_port. simpl. destruct n; discriminate. }
  split; [|split; [exact I|reflexivity]]. intros SI. assert (E : at_port (EArr k ANew n t) (Incoming, 0) = Some (Val t)) by (destruct n; [lia|reflexivity]).
  pose proof (si_classical _ _ _ _ SI _ _ _ I E NQ) as K. discriminate K.
Qed.

Lemma C90_panics_refuted_pf :
  forall k o n t controls, ~ In o [ANew; AUnpack; ASwap] -> modify_ext true controls (EArr k o n t) = (Panicked, controls).
Proof.
 intros k o n t controls N. destruct o; try reflexivity; exfalso; apply N; simpl; auto. Qed.

Lemma C91_placed_partial_pf :
  forall controls e, exists corr, modify_ext false controls e = (Placed e corr, controls) /\ stands_in false e e corr /\
    forall p q, In (p, q) corr -> q = p.
Proof.
  intros controls e. exists (map (fun p => (p, p)) (all_ports e)). split; [|split; [apply same_in|]].
  - unfold modify_ext. destruct e as [k o n t|b to n t|l i o]; reflexivity.
  - intros p q I. apply (in_pairs (fun p => p)) in I. tauto.
Qed.

Lemma C91_uncontrolled_refuted_pf :
  forall label ins outs controls, In Qb ins -> controls <> [] -> exists new corr,
    modify_ext false controls (EOther label ins outs) = (Placed new corr, controls) /\
    rows new <> (repeat Qb (length controls) ++ ins, repeat Qb (length controls) ++ outs).
Proof.
  intros label ins outs controls IQ NC. do 2 eexists. split; [reflexivity|]. cbn [rows]. intros E. injection E as E _.
  apply (f_equal (@length ty)) in E. rewrite app_length, repeat_length in E. destruct controls; [contradiction|]. simpl in E. lia.
Qed.

