(** The gates of a region in different orders. *)
From Coq Require Import List Arith Bool Lia Permutation Relations.
From Verif Require Import OpsModel ResolveModel ResolveSpec ResolveMain DfgModel DfgSpec DfgProofs DfgProofs2 DfgProofs3 DfgProofs4 DfgProofs5.
Import ListNotations.
Local Notation S := Datatypes.S.

Lemma before_trans : forall l a b c, NoDup l -> before l a b -> before l b c -> before l a c.
Proof.
  intros l a b c N (x & y & z & E) (x' & y' & z' & E').
  rewrite E in N. replace (x ++ a :: y ++ b :: z) with ((x ++ a :: y) ++ b :: z) in N, E by (rewrite <- app_assoc; auto).
  assert (P : x ++ a :: y = x').
  { apply (split_unique _ _ _ _ _ _ N (eq_trans (eq_sym E) E')). }
  subst x'. exists x, (y ++ b :: y'), z'. rewrite E', <- !app_assoc. simpl. rewrite <- ?app_assoc. auto.
Qed.
Lemma before_asym : forall l a b, NoDup l -> before l a b -> before l b a -> False.
Proof.
  intros l a b N A B. pose proof (before_trans _ _ _ _ N A B) as (x & y & z & E). rewrite E in N.
  apply NoDup_remove_2 in N. apply N. apply in_or_app. right. apply in_or_app. simpl; auto.
Qed.

(** Exchanging neighbours. *)
Section Swap.
Variable A : Type.
Variable R : A -> A -> Prop.
Notation swaps := (swaps R).

Lemma swaps_trans : forall l m n, swaps l m -> swaps m n -> swaps l n.
Proof. intros l m n H. induction H; intro K; auto. apply swaps_step; auto. Qed.
Lemma swaps_cons : forall a l m, swaps l m -> swaps (a :: l) (a :: m).
Proof.
  intros a l m H. induction H; [apply swaps_refl|]. apply (swaps_step R (a :: x)); auto.
Qed.
Lemma swaps_front : forall x a y, (forall b, In b x -> ~ R a b) -> swaps (a :: x ++ y) (x ++ a :: y).
Proof.
  induction x as [|b x IH]; intros a y H; simpl; [apply swaps_refl|].
  apply (swaps_step R []); [apply H; simpl; auto|]. simpl. apply swaps_cons. apply IH. intros. apply H. simpl; auto.
Qed.
End Swap.

Lemma swaps_orders : forall (R : nat -> nat -> Prop) l l', NoDup l -> Permutation l l' ->
  (forall a b, R a b -> before l a b -> before l' a b) -> swaps R l l'.
Proof.
  intros R. induction l as [|a l IH]; intros l' N P H.
  - apply Permutation_nil in P. subst. apply swaps_refl.
  - assert (J : In a l') by (apply (Permutation_in _ P); simpl; auto).
    apply in_split in J. destruct J as (x & y & ->).
    pose proof (Permutation_NoDup P N) as N'. apply NoDup_cons_iff in N. destruct N as [Na N].
    apply Permutation_cons_app_inv in P.
    apply swaps_trans with (a :: x ++ y).
    + apply swaps_cons. apply IH; auto. intros b c Rbc B. specialize (H b c Rbc (before_cons _ _ _ _ B)).
      destruct (before_in _ _ _ B) as [Jb Jc].
      assert (b <> a) by (intro; subst; auto). assert (c <> a) by (intro; subst; auto).
      pose proof (before_filter (fun z => negb (Nat.eqb z a)) _ _ _ H) as F.
      assert (G : forall z, z <> a -> negb (Nat.eqb z a) = true).
      { intros z Hz. apply Nat.eqb_neq in Hz. rewrite Hz. auto. }
      specialize (F (G _ H0) (G _ H1)).
      assert (K : forall m, ~ In a m -> filter (fun z => negb (Nat.eqb z a)) m = m).
      { induction m as [|z m IHm]; intro Hm; simpl; auto. destruct (Nat.eqb_spec z a).
        - subst. exfalso. apply Hm. simpl; auto.
        - simpl. rewrite IHm; auto. intro; apply Hm; simpl; auto. }
      apply NoDup_remove_2 in N'.
      rewrite filter_app in F. simpl in F. rewrite Nat.eqb_refl in F. simpl in F.
      rewrite !K in F; auto; intro; apply N', in_or_app; auto.
    + apply swaps_front. intros b Jb Rab. 
      assert (B : before (x ++ a :: y) a b).
      { apply (H a b Rab). apply before_head. apply (Permutation_in _ (Permutation_sym P)), in_or_app. auto. }
      assert (B' : before (x ++ a :: y) b a).
      { apply before_app; simpl; auto. }
      apply (before_asym _ _ _ N' B B').
Qed.

Section Run.
Variables (g : graph) (order order' : list nat).
Hypothesis W : wf g.
Hypothesis Tp : topological g order.
Hypothesis Tp' : topological g order'.
Variable V : Type.
Variable cl : nat -> list V -> nat -> V.
Variables (ins outs : list (value V)) (val : node * nat -> value V).
Hypothesis Ca : carries cl g ins outs val.
Hypothesis Classical : forall k l ins outs, In (k, Copied l ins outs) (g_nodes g) ->
  forall b, In b (ins ++ outs) -> b = false.
Hypothesis Ni : NoDup (names ins).

Definition dep (a b : nat) : Prop := exists i j, In ((Nd a, i), (Nd b, j)) (g_edges g).

Lemma dep_before : forall a b, clos_trans nat dep a b -> before order' a b.
Proof.
  intros a b H. induction H as [a b (i & j & J)|a b c _ IH1 _ IH2].
  - destruct Tp' as [_ B]. apply (B _ _ _ _ J).
  - apply (before_trans _ _ b); auto. apply (order_nd g order' W Tp').
Qed.

Lemma event_port : forall k e q, is_event g val k e -> In q (qubits_of e) ->
  exists i, target g (Nd k, i) true /\ nameof V val (src g (Nd k, i)) = q.
Proof.
  intros k [o d cs ts a] q (No & L & Q & _) J. simpl in J. apply In_nth_error in J. destruct J as (i & N).
  exists i. split.
  - apply gate_qubit_target with o d (length cs); auto. rewrite <- L, <- app_length. apply nth_error_Some. congruence.
  - unfold nameof. rewrite <- (arrives_is g W _ _ _ _ (Q _ _ N)). auto.
Qed.

Lemma src_live : forall p k r i, order = p ++ k :: r -> target g (Nd k, i) true ->
  live_in g p (src g (Nd k, i)).
Proof.
  intros p k r i E T. split; [apply src_type; auto|]. split.
  - destruct (src_before g order W Tp _ _ _ _ _ E T) as [X|(b & X & Jb)]; rewrite X; simpl; auto.
  - exists (Nd k, i). split; [apply (src_in g W _ _ T)|]. simpl. intro Jk.
    pose proof (order_nd g order W Tp) as No. rewrite E in No. apply NoDup_remove in No. destruct No as [_ No].
    apply No, in_or_app. auto.
Qed.

Lemma live_unique : forall p r s s', order = p ++ r -> live_in g p s -> live_in g p s' ->
  nameof V val s = nameof V val s' -> s = s'.
Proof.
  intros p r s s' E L L' Q.
  destruct (live_prefix g order W Tp V cl ins outs val Ca Classical p r E) as (live & N & H & P).
  apply (NoDup_map_eq _ _ (nameof V val) live); try apply H; auto.
  apply (Permutation_NoDup (Permutation_sym P)). auto.
Qed.

Lemma gate_name : forall k i, source g (Nd k, i) true ->
  target g (Nd k, i) true /\ nameof V val (Nd k, i) = nameof V val (src g (Nd k, i)).
Proof.
  intros k i (o & No & Q). simpl in No. destruct o as [o d n|l i0 u0]; simpl in Q.
  - rewrite nth_repeat' in Q. destruct (Nat.ltb_spec i (n + gop_qubits o)) as [L|]; [|discriminate]. split.
    + apply gate_qubit_target with o d n; auto.
    + unfold nameof. f_equal. apply (arrives_is g W). apply (ca_gate _ _ _ _ _ _ Ca k o d n); auto.
  - exfalso. assert (true = false); [|discriminate]. apply (Classical _ _ _ _ No), in_or_app. apply nth_error_In in Q. auto.
Qed.

Lemma reach_prefix : forall p r, order = p ++ r -> forall a e q s, In a p -> is_event g val a e ->
  In q (qubits_of e) -> live_in g p s -> nameof V val s = q ->
  exists c i, s = (Nd c, i) /\ (c = a \/ clos_trans nat dep a c).
Proof.
  induction p as [|k p IH] using rev_ind; intros r E a e q s Ja Ev J L Q; [destruct Ja|].
  pose proof E as E1. rewrite <- app_assoc in E. simpl in E. destruct L as (Hs & Rs & t & Je & Rt). destruct s as [x i].
  assert (Rx : reached p x \/ x = Nd k).
  { destruct x as [| |c]; simpl in Rs |- *; auto. apply in_app_or in Rs. destruct Rs as [Rs|[->|[]]]; auto. }
  assert (Nk : ~ In k p).
  { pose proof (order_nd g order W Tp) as No. rewrite E in No. apply NoDup_remove in No. destruct No as [_ No].
    intro. apply No, in_or_app; auto. }
  apply in_app_or in Ja. destruct Rx as [Rx| ->].
  - assert (Lp : live_in g p (x, i)).
    { split; auto. split; auto. exists t. split; auto. destruct t as [[| |c] j]; simpl in *; auto.
      intro. apply Rt, in_or_app; auto. }
    destruct Ja as [Ja|[<-|[]]]; [apply (IH _ E a e q); auto|].
    exfalso. destruct (event_port _ _ _ Ev J) as (j & T & Qj).
    pose proof (src_live _ _ _ _ E T) as L0.
    assert (Es : (x, i) = src g (Nd k, j)) by (apply (live_unique p (k :: r)); auto; congruence).
    pose proof (src_in g W _ _ T) as J0. rewrite <- Es in J0.
    rewrite (wf_linear g W _ _ _ Hs Je J0) in Rt. apply Rt. simpl. apply in_or_app. simpl; auto.
  - exists k, i. split; auto. destruct Ja as [Ja|[<-|[]]]; auto. right.
    destruct (gate_name _ _ Hs) as [T Qn]. pose proof (src_live _ _ _ _ E T) as L0.
    destruct (IH _ E a e q (src g (Nd k, i)) Ja Ev J L0) as (c & j & Ec & Hc); [congruence|].
    pose proof (src_in g W _ _ T) as J0. rewrite Ec in J0.
    assert (D : dep c k) by (exists j, i; auto).
    destruct Hc as [->|Hc]; [apply t_step; auto|]. apply t_trans with c; auto. apply t_step; auto.
Qed.

(** Two nodes which act on the same qubit. *)
Definition meet (a b : nat) : Prop :=
  exists ea eb q, is_event g val a ea /\ is_event g val b eb /\ In q (qubits_of ea) /\ In q (qubits_of eb).

Lemma meet_before : forall a b, meet a b -> before order a b -> before order' a b.
Proof.
  intros a b (ea & eb & q & Ea & Eb & Qa & Qb) (x & y & z & E). apply dep_before.
  destruct (event_port _ _ _ Eb Qb) as (i & T & Qi).
  assert (E1 : order = (x ++ a :: y) ++ b :: z) by (rewrite E, <- app_assoc; auto).
  pose proof (src_live _ _ _ _ E1 T) as L.
  assert (Ja : In a (x ++ a :: y)) by (apply in_or_app; simpl; auto).
  destruct (reach_prefix _ _ E1 a ea q _ Ja Ea Qa L Qi) as (c & j & Ec & Hc).
  pose proof (src_in g W _ _ T) as J0. rewrite Ec in J0.
  assert (D : dep c b) by (exists j, i; auto).
  destruct Hc as [->|Hc]; [apply t_step; auto|]. apply t_trans with c; auto. apply t_step; auto.
Qed.

Lemma trace_app_inv : forall l m es, trace g val (l ++ m) es ->
  exists es1 es2, es = es1 ++ es2 /\ trace g val l es1 /\ trace g val m es2.
Proof.
  induction l as [|k l IH]; intros m es T; simpl in T.
  - exists [], es. split; auto. split; auto. constructor.
  - inversion T; subst.
    + destruct (IH _ _ H3) as (es1 & es2 & -> & T1 & T2). exists (e :: es1), es2. split; auto. split; auto. constructor; auto.
    + destruct (IH _ _ H3) as (es1 & es2 & -> & T1 & T2). exists es1, es2. split; auto. split; auto.
      apply trace_copied with lab ins0 outs0; auto.
Qed.

Lemma trace_swaps : forall l l', swaps meet l l' -> forall es, trace g val l es ->
  exists es', trace g val l' es' /\ swaps share es es'.
Proof.
  intros l l' H. induction H as [l|x a b y l NR _ IH]; intros es T.
  - exists es. split; auto. apply swaps_refl.
  - destruct (trace_app_inv _ _ _ T) as (es1 & es2 & -> & T1 & T2).
    inversion T2; subst.
    + inversion H3; subst.
      * destruct (IH (es1 ++ e0 :: e :: es0)) as (es' & T' & S').
        { apply trace_app; auto. constructor; auto. constructor; auto. }
        exists es'. split; auto. apply swaps_step; auto. intros (q & Q1 & Q2). apply NR. exists e, e0, q. auto.
      * destruct (IH (es1 ++ e :: es)) as (es' & T' & S').
        { apply trace_app; auto. apply trace_copied with lab ins0 outs0; auto. constructor; auto. }
        exists es'. split; auto.
    + inversion H3; subst.
      * destruct (IH (es1 ++ e :: es)) as (es' & T' & S').
        { apply trace_app; auto. constructor; auto. apply trace_copied with lab ins0 outs0; auto. }
        exists es'. split; auto.
      * destruct (IH (es1 ++ es2)) as (es' & T' & S').
        { apply trace_app; auto. apply trace_copied with lab0 ins1 outs1; auto. apply trace_copied with lab ins0 outs0; auto. }
        exists es'. split; auto.
Qed.

Lemma orders_swaps : forall es, trace g val order es -> exists es', trace g val order' es' /\ swaps share es es'.
Proof.
  intros es T. apply (trace_swaps order order'); auto. apply swaps_orders.
  - apply (order_nd g order W Tp).
  - destruct Tp as [P _], Tp' as [P' _]. rewrite P. apply Permutation_sym. auto.
  - intros a b. apply meet_before.
Qed.
End Run.
