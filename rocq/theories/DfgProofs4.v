(** Every region has exactly one run, and its qubits keep apart. *)
From Coq Require Import List Arith Bool Lia Permutation.
From Verif Require Import OpsModel ResolveModel ResolveSpec ResolveMain DfgModel DfgSpec DfgProofs DfgProofs2 DfgProofs3.
Import ListNotations.
Local Notation S := Datatypes.S.

Lemma split_unique : forall (A : Type) (p p' : list A) k r r', NoDup (p ++ k :: r) ->
  p ++ k :: r = p' ++ k :: r' -> p = p'.
Proof.
  induction p as [|a p IH]; intros p' k r r' N E; simpl in *.
  - destruct p' as [|a' p']; auto. simpl in E. injection E as -> E. exfalso.
    apply NoDup_cons_iff in N. destruct N as [N _]. apply N. rewrite E. apply in_or_app. simpl; auto.
  - destruct p' as [|a' p']; simpl in E.
    + injection E as -> E. exfalso. apply NoDup_cons_iff in N. destruct N as [N _]. apply N.
      apply in_or_app. simpl; auto.
    + injection E as -> E. f_equal. apply NoDup_cons_iff in N. destruct N as [_ N]. apply (IH p' k r r'); auto.
Qed.

Lemma before_split : forall p k r a, NoDup (p ++ k :: r) -> before (p ++ k :: r) a k -> In a p.
Proof.
  intros p k r a N (x & y & z & E).
  replace (x ++ a :: y ++ k :: z) with ((x ++ a :: y) ++ k :: z) in E by (rewrite <- app_assoc; auto).
  rewrite (split_unique _ _ _ _ _ _ N E). apply in_or_app. simpl; auto.
Qed.

Lemma list_choice : forall (A : Type) (P : nat -> A -> Prop) n, (forall i, i < n -> exists x, P i x) ->
  exists l, length l = n /\ forall i x, nth_error l i = Some x -> P i x.
Proof.
  intros A P n. revert P. induction n as [|n IH]; intros P H.
  - exists []. split; auto. intros [|i] x Q; discriminate.
  - destruct (H 0) as (x0 & P0); [lia|].
    destruct (IH (fun i => P (S i))) as (l & L & Q); [intros; apply H; lia|].
    exists (x0 :: l). split; [simpl; lia|]. intros [|i] x N; simpl in N; [congruence|apply Q; auto].
Qed.

Lemma nth_eq : forall (A : Type) (l l' : list A), length l = length l' ->
  (forall i x y, nth_error l i = Some x -> nth_error l' i = Some y -> x = y) -> l = l'.
Proof.
  induction l as [|a l IH]; intros [|a' l'] L H; try discriminate; auto.
  f_equal; [apply (H 0); auto|]. apply IH; [simpl in L; lia|]. intros i x y. apply (H (S i)).
Qed.

Lemma nth_ex : forall (A : Type) (l : list A) i, i < length l -> exists x, nth_error l i = Some x.
Proof. intros A l i L. destruct (nth_error l i) eqn:Q; eauto. apply nth_error_None in Q. lia. Qed.

Lemma pair_dec : forall a b : node * nat, {a = b} + {a <> b}.
Proof. repeat decide equality. Qed.

(** ** The source of an input port *)

Definition src (g : graph) (t : node * nat) : node * nat :=
  match find (fun e => if pair_dec (snd e) t then true else false) (g_edges g) with
  | Some e => fst e
  | None => (Outp, 0)
  end.

Section Run.
Variables (g : graph) (order : list nat).
Hypothesis W : wf g.
Hypothesis Tp : topological g order.

Lemma src_edge : forall s t, In (s, t) (g_edges g) -> src g t = s.
Proof.
  intros s t J. unfold src.
  destruct (find _ (g_edges g)) as [[s' t']|] eqn:Q.
  - apply find_some in Q. destruct Q as [J' Q]. simpl in Q. destruct (pair_dec t' t); [|discriminate].
    subst t'. simpl. assert ((s', t) = (s, t)); [|congruence].
    apply (NoDup_map_eq _ _ snd (g_edges g)); auto. apply (wf_once g W).
  - apply (find_none _ _ Q) in J. simpl in J. destruct (pair_dec t t); congruence.
Qed.
Lemma src_in : forall t b, target g t b -> In (src g t, t) (g_edges g).
Proof.
  intros t b T. destruct (wf_fed g W t b T) as (s & J). rewrite (src_edge _ _ J). auto.
Qed.
Lemma target_fun' : forall t b b', target g t b -> target g t b' -> b = b'.
Proof.
  intros [[| |k] i] b b'; unfold target; simpl; intros A B; try tauto; try congruence.
  destruct A as (o & No & A), B as (o' & No' & B). rewrite (nodes_fun g W _ _ _ No' No) in B. congruence.
Qed.
Lemma src_type : forall t b, target g t b -> source g (src g t) b.
Proof.
  intros t b T. destruct (wf_typed g W _ _ (src_in _ _ T)) as (b' & Hs & Ht).
  rewrite (target_fun' _ _ _ T Ht). auto.
Qed.
Lemma src_inj : forall t t', target g t true -> target g t' true -> src g t = src g t' -> t = t'.
Proof.
  intros t t' T T' E. pose proof (src_in _ _ T) as J. pose proof (src_in _ _ T') as J'. rewrite <- E in J'.
  apply (wf_linear g W _ _ _ (src_type _ _ T) J J').
Qed.

Lemma order_nd : NoDup order.
Proof. destruct Tp as [P _]. apply (Permutation_NoDup (Permutation_sym P)), (wf_nodes g W). Qed.
Lemma order_node : forall k, In k order <-> exists o, In (k, o) (g_nodes g).
Proof.
  destruct Tp as [P _]. intro k. split.
  - intro J. apply (Permutation_in _ P) in J. apply in_map_iff in J. destruct J as ([k' o] & E & J). simpl in E. subst. eauto.
  - intros (o & J). apply (Permutation_in _ (Permutation_sym P)). apply (in_map fst) in J. auto.
Qed.

(** Sources come from the input node or from nodes before. *)
Lemma src_before : forall p k r i b, order = p ++ k :: r -> target g (Nd k, i) b ->
  fst (src g (Nd k, i)) = Inp \/ exists a, fst (src g (Nd k, i)) = Nd a /\ In a p.
Proof.
  intros p k r i b E T. pose proof (src_in _ _ T) as J. pose proof (src_type _ _ T) as Q.
  destruct (src g (Nd k, i)) as [[| |a] j] eqn:Es; simpl; auto.
  - destruct Q.
  - right. exists a. split; auto. destruct Tp as [_ B]. apply B in J. rewrite E in J.
    pose proof order_nd as N. rewrite E in N. apply (before_split _ _ _ _ N J).
Qed.

Section Values.
Variable V : Type.
Variable cl : nat -> list V -> nat -> V.

Lemma arrives_src : forall val t b, target g t b -> arrives (V := V) g val t (val (src g t)).
Proof. intros val t b T. exists (src g t). split; auto. apply (src_in _ _ T). Qed.
Lemma arrives_is : forall val t x, arrives (V := V) g val t x -> x = val (src g t).
Proof. intros val t x (s & J & <-). rewrite (src_edge _ _ J). auto. Qed.

(** ** A run exists *)

Definition local (val : node * nat -> value V) (k : nat) : Prop :=
  forall o, In (k, o) (g_nodes g) ->
  (forall i b, nth_error (op_outs o) i = Some b -> of_type b (val (Nd k, i))) /\
  match o with
  | Gate gg d n => forall i, i < n + gop_qubits gg -> arrives g val (Nd k, i) (val (Nd k, i))
  | Copied l ins outs =>
      exists vs, length vs = length ins /\
        (forall i v, nth_error vs i = Some v -> arrives g val (Nd k, i) (Cl v)) /\
        (forall j, j < length outs -> val (Nd k, j) = Cl (cl l vs j))
  end.

Hypothesis Classical : forall k l ins outs, In (k, Copied l ins outs) (g_nodes g) ->
  forall b, In b (ins ++ outs) -> b = false.

Variable ins : list (value V).
Hypothesis Ti : Forall2 of_type (g_ins g) ins.

Lemma Forall2_nth : forall (A B : Type) (R : A -> B -> Prop) l l' i a b, Forall2 R l l' ->
  nth_error l i = Some a -> nth_error l' i = Some b -> R a b.
Proof.
  intros A B R l l' i a b F. revert i. induction F; intros [|i] E E'; simpl in *; try discriminate; [congruence|].
  apply (IHF i); auto.
Qed.
Lemma Forall2_len : forall (A B : Type) (R : A -> B -> Prop) l l', Forall2 R l l' -> length l = length l'.
Proof. intros A B R l l' F. induction F; simpl; congruence. Qed.

Lemma run_prefix : forall p r, order = p ++ r -> exists val,
  (forall i x, nth_error ins i = Some x -> val (Inp, i) = x) /\ forall k, In k p -> local val k.
Proof.
  induction p as [|k p IH] using rev_ind; intros r E.
  - exists (fun s => nth (snd s) ins (Qb 0)). split; [|intros k []].
    intros i x N. simpl. apply nth_error_nth. auto.
  - rewrite <- app_assoc in E. simpl in E. destruct (IH _ E) as (val & Vi & Vp).
    pose proof order_nd as Nd'. rewrite E in Nd'.
    assert (Nk : ~ In k p).
    { apply NoDup_remove in Nd'. destruct Nd' as [_ Nd']. intro J. apply Nd', in_or_app. auto. }
    assert (Jk : In k order) by (rewrite E; apply in_or_app; simpl; auto).
    apply order_node in Jk. destruct Jk as (o & No).
    (* typed inputs *)
    assert (Tin : forall i b, target g (Nd k, i) b -> of_type b (val (src g (Nd k, i)))).
    { intros i b T. pose proof (src_type _ _ T) as Hs.
      destruct (src_before _ _ _ _ _ E T) as [Q|(a & Q & Ja)];
        destruct (src g (Nd k, i)) as [x j]; simpl in Q; subst x; unfold source in Hs; simpl in Hs.
      - assert (L : j < length ins).
        { rewrite <- (Forall2_len _ _ _ _ _ Ti). apply nth_error_Some. congruence. }
        destruct (nth_ex _ _ _ L) as (x & Nx). rewrite (Vi _ _ Nx). apply (Forall2_nth _ _ _ _ _ _ _ _ Ti Hs Nx).
      - destruct Hs as (o' & No' & Hs). apply (Vp a Ja o' No'). auto. }
    (* values at the new node *)
    assert (exists newv : nat -> value V,
      (forall i b, nth_error (op_outs o) i = Some b -> of_type b (newv i)) /\
      match o with
      | Gate gg d n => forall i, i < n + gop_qubits gg -> newv i = val (src g (Nd k, i))
      | Copied l ins outs =>
          exists vs, length vs = length ins /\
            (forall i v, nth_error vs i = Some v -> val (src g (Nd k, i)) = Cl v) /\
            (forall j, j < length outs -> newv j = Cl (cl l vs j))
      end) as (newv & Tn & Hn).
    { destruct o as [gg d n|l i0 u0].
      - exists (fun i => val (src g (Nd k, i))). split; auto.
        intros i b N. simpl in N. rewrite nth_repeat' in N. destruct (Nat.ltb_spec i (n + gop_qubits gg)) as [L|]; [|discriminate].
        injection N as <-. apply Tin. exists (Gate gg d n). split; auto. simpl. rewrite nth_repeat_app.
        rewrite (proj2 (Nat.ltb_lt _ _)); auto.
      - destruct (list_choice V (fun i v => val (src g (Nd k, i)) = Cl v) (length i0)) as (vs & L & Hv).
        { intros i L. destruct (nth_ex _ _ _ L) as (b & Nb).
          assert (b = false).
          { apply (Classical _ _ _ _ No). apply in_or_app. left. apply nth_error_In in Nb. auto. }
          subst b. assert (T : target g (Nd k, i) false) by (exists (Copied l i0 u0); auto).
          specialize (Tin _ _ T). destruct (val (src g (Nd k, i))) as [q|v]; [discriminate|]. eauto. }
        exists (fun j => Cl (cl l vs j)). split.
        + intros j b N. simpl in N. simpl. apply (Classical _ _ _ _ No). apply in_or_app. right. apply nth_error_In in N. auto.
        + exists vs. auto. }
    exists (fun s => if node_eqb (fst s) (Nd k) then newv (snd s) else val s).
    assert (Keep : forall t b a, target g t b -> fst t = Nd a -> In a p \/ a = k ->
      fst (src g t) <> Nd k).
    { intros [x i] b a T Q Ja. simpl in Q. subst x. intro X.
      assert (exists p' r', order = p' ++ a :: r' /\ ~ In k p') as (p' & r' & E' & Nk').
      { destruct Ja as [Ja| ->]; [|eauto]. apply in_split in Ja. destruct Ja as (x & y & Ep).
        exists x, (y ++ k :: r). split.
        - rewrite E, Ep, <- app_assoc. auto.
        - intro Jx. apply Nk. rewrite Ep. apply in_or_app. auto. }
      destruct (src_before _ _ _ _ _ E' T) as [Q|(a' & Q & Ja')]; rewrite Q in X; [discriminate|].
      injection X as ->. auto. }
    assert (Kv : forall t b a, target g t b -> fst t = Nd a -> In a p \/ a = k ->
      (if node_eqb (fst (src g t)) (Nd k) then newv (snd (src g t)) else val (src g t)) = val (src g t)).
    { intros t b a T Q Ja. pose proof (Keep _ _ _ T Q Ja) as X. destruct (src g t) as [[| |c] j]; simpl; auto.
      simpl in X. destruct (Nat.eqb_spec c k); auto. subst. congruence. }
    split; [intros i x Nx; simpl; auto|].
    intros a Ja. apply in_app_or in Ja.
    assert (Ja' : In a p \/ a = k) by (destruct Ja as [Ja|[->|[]]]; auto). clear Ja.
    intros o' No'.
    assert (Tg : forall gg d n i, o' = Gate gg d n -> i < n + gop_qubits gg -> target g (Nd a, i) true).
    { intros gg d n i -> L. exists (Gate gg d n). split; auto. simpl. rewrite nth_repeat_app.
      rewrite (proj2 (Nat.ltb_lt _ _)); auto. }
    assert (Tc : forall l i0 u0 i, o' = Copied l i0 u0 -> i < length i0 -> exists b, target g (Nd a, i) b).
    { intros l i0 u0 i -> L. destruct (nth_ex _ _ _ L) as (b & Nb). exists b, (Copied l i0 u0). auto. }
    destruct (Nat.eq_dec a k) as [->|Na].
    + rewrite (nodes_fun g W _ _ _ No' No) in *. split.
      * intros i b N. simpl. rewrite Nat.eqb_refl. apply Tn. auto.
      * destruct o as [gg d n|l i0 u0].
        -- intros i L. pose proof (Tg _ _ _ _ eq_refl L) as T.
           exists (src g (Nd k, i)). split; [apply (src_in _ _ T)|].
           rewrite (Kv _ _ _ T eq_refl (or_intror eq_refl)). simpl. rewrite Nat.eqb_refl. symmetry. apply Hn. auto.
        -- destruct Hn as (vs & L & Hv & Hj). exists vs. split; auto. split.
           ++ intros i v Nv. destruct (Tc _ _ _ i eq_refl) as (b & T).
              { rewrite <- L. apply nth_error_Some. congruence. }
              exists (src g (Nd k, i)). split; [apply (src_in _ _ T)|].
              rewrite (Kv _ _ _ T eq_refl (or_intror eq_refl)). auto.
           ++ intros j Lj. simpl. rewrite Nat.eqb_refl. auto.
    + destruct Ja' as [Ja|]; [|contradiction]. destruct (Vp a Ja o' No') as [A B].
      assert (Qa : Nat.eqb a k = false) by (apply Nat.eqb_neq; auto). split.
      * intros i b N. simpl. rewrite Qa. auto.
      * destruct o' as [gg d n|l i0 u0].
        -- intros i L. pose proof (Tg _ _ _ _ eq_refl L) as T.
           exists (src g (Nd a, i)). split; [apply (src_in _ _ T)|].
           rewrite (Kv _ _ _ T eq_refl (or_introl Ja)). simpl. rewrite Qa. symmetry. apply arrives_is. auto.
        -- destruct B as (vs & L & Hv & Hj). exists vs. split; auto. split.
           ++ intros i v Nv. destruct (Tc _ _ _ i eq_refl) as (b & T).
              { rewrite <- L. apply nth_error_Some. congruence. }
              exists (src g (Nd a, i)). split; [apply (src_in _ _ T)|].
              rewrite (Kv _ _ _ T eq_refl (or_introl Ja)). symmetry. apply arrives_is. auto.
           ++ intros j Lj. simpl. rewrite Qa. auto.
Qed.

Lemma run_exists : exists val outs, carries cl g ins outs val.
Proof.
  destruct (run_prefix order []) as (val & Vi & Vp); [rewrite app_nil_r; auto|].
  assert (Loc : forall k o, In (k, o) (g_nodes g) -> local val k).
  { intros k o J. apply Vp. apply order_node. eauto. }
  exists val, (map (fun j => val (src g (Outp, j))) (seq 0 (length (g_outs g)))). constructor.
  - intros [[| |k] i] b Hs; unfold source in Hs; simpl in Hs.
    + assert (L : i < length ins).
      { rewrite <- (Forall2_len _ _ _ _ _ Ti). apply nth_error_Some. congruence. }
      destruct (nth_ex _ _ _ L) as (x & Nx). rewrite (Vi _ _ Nx). apply (Forall2_nth _ _ _ _ _ _ _ _ Ti Hs Nx).
    + destruct Hs.
    + destruct Hs as (o & No & Hs). apply (Loc k o No o No). auto.
  - split; auto. rewrite (Forall2_len _ _ _ _ _ Ti). auto.
  - split; [rewrite map_length, seq_length; auto|]. intros j x N.
    assert (L : j < length (g_outs g)).
    { rewrite <- (seq_length (length (g_outs g)) 0), <- (map_length (fun j => val (src g (Outp, j)))).
      apply nth_error_Some. congruence. }
    rewrite nth_error_map in N.
    rewrite (nth_error_nth' (seq 0 (length (g_outs g))) 0) in N by (rewrite seq_length; auto). simpl in N.
    rewrite seq_nth in N by auto. injection N as <-. destruct (nth_ex _ _ _ L) as (b & Nb).
    apply (arrives_src val (Outp, j) b). auto.
  - intros k o d n No i L. destruct (Loc _ _ No _ No) as [_ A]. apply A; auto.
  - intros k l i0 u0 No. destruct (Loc _ _ No _ No) as [_ A]. auto.
Qed.
End Values.
End Run.
