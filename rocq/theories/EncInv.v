(** The registers of live wires are distinct and not free: this is kept by reading and registering wires. *)
From Coq Require Import List Bool Arith Lia.
From Verif Require Import EncSpec EncModel EncFacts.
Import ListNotations.

Section Inv.
Variables Op E : Type.
Notation state := (state Op E).
Notation value := (value E).
Variable c : circuit Op E.
Notation cocc := (count_occ Nat.eq_dec).

(** [dn]: the wires defined so far; [cs]: the wires read so far. *)
Record sinv (st : state) (dn cs : list wire) : Prop := {
  s_wf : wf st;
  s_names : NoDup (map fst (wires st));
  s_wire : forall w vs n, In (w, (vs, n)) (wires st) ->
             In w dn /\ n + cocc cs w = uses c w /\ 0 < n /\ (forall k, length (regs_of k vs) = cnt (count_of c w) k) /\ length (pars_of vs) = cp (count_of c w);
  s_present : forall w, In w dn -> cocc cs w < uses c w -> In w (map fst (wires st));
  s_each : forall w vs n k, In (w, (vs, n)) (wires st) -> NoDup (regs_of k vs);
  s_disj : forall w vs n w' vs' n' k i, In (w, (vs, n)) (wires st) -> In (w', (vs', n')) (wires st) -> In i (regs_of k vs) -> In i (regs_of k vs') -> w = w';
  s_live : forall w vs n k i, In (w, (vs, n)) (wires st) -> In i (regs_of k vs) -> ~ free st k i }.

Lemma sinv_ext : forall st dn dn' cs cs', (forall w, In w dn <-> In w dn') -> (forall w, cocc cs w = cocc cs' w) -> sinv st dn cs -> sinv st dn' cs'.
Proof.
  intros st dn dn' cs cs' D C [A1 A2 A3 A4 A5 A6 A7]. constructor; auto.
  - intros w vs n I. rewrite <- D, <- C. auto.
  - intros w. rewrite <- D, <- C. auto.
Qed.

(** Only what is free, the wires and their names matter. *)
Lemma sinv_same : forall st st' dn cs, wf st' -> wires st' = wires st -> (forall k i, free st' k i -> free st k i) -> sinv st dn cs -> sinv st' dn cs.
Proof.
  intros st st' dn cs W Q F [A1 A2 A3 A4 A5 A6 A7]. constructor; auto; rewrite ?Q; auto.
  intros w vs n k i I J G. apply F in G. revert G. eapply A7; eauto.
Qed.

Lemma register_wire_spec : forall st dn cs w vs, sinv st dn cs -> ~ In w dn -> cocc cs w = 0 ->
  (forall k, NoDup (regs_of k vs) /\ (forall i, In i (regs_of k vs) -> i < size st k) /\
             forall w' vs' n' i, In (w', (vs', n')) (wires st) -> In i (regs_of k vs') -> ~ In i (regs_of k vs)) ->
  (forall k, length (regs_of k vs) = cnt (count_of c w) k) -> length (pars_of vs) = cp (count_of c w) ->
  exists st', register_wire c st w vs = Some st' /\ sinv st' (w :: dn) cs /\ size st' = size st /\ cmds st' = cmds st /\
    wires st' = (if Nat.eqb (uses c w) 0 then wires st else (w, (vs, uses c w)) :: wires st) /\
    forall k i, free st' k i <-> (free st k i /\ ~ In i (regs_of k vs)) \/ (uses c w = 0 /\ In i (regs_of k vs)).
Proof.
  intros st dn cs w vs S Nd C0 H L1 L2. destruct S as [A1 A2 A3 A4 A5 A6 A7].
  unfold register_wire. destruct (mark_used_spec Op E vs st) as (M1 & M2 & M3 & M4).
  assert (Nw : ~ In w (map fst (wires st))).
  { intros F. apply in_map_iff in F. destruct F as ([w' [vs' n']] & Q & F). simpl in Q. subst w'. apply A3 in F. tauto. }
  rewrite M2. assert (Q := proj2 (find_wire_none E (wires st) w) Nw). rewrite Q. clear Q.
  destruct A1 as [W1 W2].
  assert (F1 : forall k i, free (mark_used st vs) k i <-> free st k i /\ ~ In i (regs_of k vs)).
  { intros k i. unfold free. rewrite M1. rewrite (proj2 (M4 k) i). destruct (H k) as (_ & H2 & _). split.
    - intros [[? ?]|?]; split; auto. intros F. apply H2 in F. lia.
    - intros [[?|?] ?]; auto. }
  assert (WF1 : wf (mark_used st vs)).
  { constructor; intros k; [apply (M4 k); auto|]. intros i I. apply (M4 k) in I. rewrite M1. apply W2. apply I. }
  destruct (Nat.eqb (uses c w) 0) eqn:U.
  - apply Nat.eqb_eq in U. eexists. split; [reflexivity|].
    destruct (mark_unused_spec Op E vs (mark_used st vs)) as (N1 & N2 & N3 & N4).
    assert (F2 : forall k i, free (mark_unused (mark_used st vs) vs) k i <-> (free st k i /\ ~ In i (regs_of k vs)) \/ (uses c w = 0 /\ In i (regs_of k vs))).
    { intros k i. rewrite <- F1. unfold free. rewrite N1. rewrite (proj2 (N4 k) i). tauto. }
    split; [|split; [congruence|split; [congruence|split; [congruence|exact F2]]]].
    constructor; rewrite ?N2, ?M2; auto.
    + constructor; intros k; [apply (N4 k), WF1|]. intros i I. apply (N4 k) in I. rewrite N1. destruct I as [I|I]; [apply WF1; auto|rewrite M1; apply (H k); auto].
    + intros w' vs' n' I. destruct (A3 w' vs' n' I) as (P1 & P2). split; [right; auto|exact P2].
    + intros w' [<-|I] G; [lia|auto].
    + intros w' vs' n' k i I J G. apply F2 in G. destruct G as [[G _]|[_ G]]; [revert G; eapply A7; eauto|]. destruct (H k) as (_ & _ & H3). eapply H3; eauto.
  - apply Nat.eqb_neq in U. eexists. split; [reflexivity|]. simpl.
    split; [|split; [exact M1|split; [exact M3|split; [reflexivity|]]]].
    + constructor; simpl.
      * destruct WF1 as [X1 X2]. constructor; simpl; auto.
      * constructor; auto.
      * intros w' vs' n' [I|I].
        -- injection I as <- <- <-. split; [auto|]. split; [lia|]. split; [lia|]. auto.
        -- destruct (A3 w' vs' n' I) as (P1 & P2). split; [right; auto|exact P2].
      * intros w' [<-|I] G; [left; auto|right; auto].
      * intros w' vs' n' k [I|I]; [injection I as <- <- <-; apply (H k)|eapply A5; eauto].
      * intros w1 vs1 n1 w2 vs2 n2 k i [I|I] [J|J] X Y.
        -- injection I as <- <- <-. injection J as <- <- <-. reflexivity.
        -- injection I as <- <- <-. exfalso. destruct (H k) as (_ & _ & H3). eapply H3; eauto.
        -- injection J as <- <- <-. exfalso. destruct (H k) as (_ & _ & H3). eapply H3; eauto.
        -- eapply A6; eauto.
      * intros w' vs' n' k i [I|I] J G; apply F1 in G; destruct G as [G1 G2].
        -- injection I as <- <- <-. contradiction.
        -- revert G1. eapply A7; eauto.
    + intros k i. change (free (with_wires (mark_used st vs) ((w, (vs, uses c w)) :: wires st)) k i) with (free (mark_used st vs) k i). rewrite F1. split; [auto|]. intros [?|[? ?]]; [auto|contradiction].
Qed.

Lemma wire_values_spec : forall st dn cs w, sinv st dn cs -> In w dn -> cocc cs w < uses c w ->
  exists st' vs n, wire_values st w = Some (st', vs) /\ find_wire (wires st) w = Some (vs, n) /\ sinv st' dn (w :: cs) /\ size st' = size st /\ cmds st' = cmds st /\
    (forall w' vs' n', In (w', (vs', n')) (wires st') -> exists n'', In (w', (vs', n'')) (wires st)) /\
    forall k i, free st' k i <-> free st k i \/ (uses c w = S (cocc cs w) /\ In i (regs_of k vs)).
Proof.
  intros st dn cs w S Iw Lt. destruct S as [A1 A2 A3 A4 A5 A6 A7].
  assert (P := A4 w Iw Lt). apply in_map_iff in P. destruct P as ([w0 [vs n]] & Q & P). simpl in Q. subst w0.
  assert (F := in_find_wire E (wires st) w (vs, n) A2 P). destruct (A3 w vs n P) as (B1 & B2 & B3 & B4 & B5).
  unfold wire_values. rewrite F. destruct (drop_wire_nodup E (wires st) w A2) as [D1 D2].
  destruct (Nat.eqb n 1) eqn:N1.
  - apply Nat.eqb_eq in N1. subst n. eexists _, vs, 1. split; [reflexivity|]. split; [reflexivity|].
    destruct (mark_unused_spec Op E vs (with_wires st (drop_wire (wires st) w))) as (N1 & N2 & N3 & N4). simpl in N1, N2, N3.
    assert (FF : forall k i, free (mark_unused (with_wires st (drop_wire (wires st) w)) vs) k i <-> free st k i \/ (uses c w = Datatypes.S (cocc cs w) /\ In i (regs_of k vs))).
    { intros k i. unfold free. rewrite N1, (proj2 (N4 k) i). simpl. split; [intros [[?|?]|?]; auto; right; split; auto; lia|intros [[?|?]|[_ ?]]; auto]. }
    split; [|split; [exact N1|split; [exact N3|split; [|exact FF]]]].
    + destruct A1 as [W1 W2]. constructor; rewrite ?N2.
      * constructor; intros k; [apply (N4 k); apply W1|]. intros i I. apply (N4 k) in I. rewrite N1. destruct I as [I|I]; [apply W2; auto|].
        destruct (le_lt_dec (size st k) i); auto. exfalso. apply (A7 w vs 1 k i P I). right. auto.
      * exact D1.
      * intros w' vs' n' I. apply drop_wire_in in I. destruct I as [I Ne]. destruct (A3 w' vs' n' I) as (P1 & P2). split; auto. simpl. destruct (Nat.eq_dec w w'); [congruence|exact P2].
      * intros w' I G. simpl in G. destruct (Nat.eq_dec w w') as [<-|Ne]; [lia|]. apply A4 in I; auto. apply in_map_iff in I. destruct I as ([w0 x] & Q & I). simpl in Q. subst. apply in_map_iff. exists (w', x). split; auto. apply drop_wire_in. auto.
      * intros w' vs' n' k I. apply drop_wire_in in I. eapply A5. apply I.
      * intros w1 vs1 n1 w2 vs2 n2 k i I J. apply drop_wire_in in I. apply drop_wire_in in J. eapply A6; [apply I|apply J].
      * intros w' vs' n' k i I J G. apply drop_wire_in in I. destruct I as [I Ne]. apply FF in G. destruct G as [G|[_ G]]; [revert G; eapply A7; eauto|].
        apply Ne. eapply (A6 w' vs' n' w vs 1); eauto.
    + intros w' vs' n' I. rewrite N2 in I. apply drop_wire_in in I. exists n'. apply I.
  - apply Nat.eqb_neq in N1. eexists _, vs, n. split; [reflexivity|]. split; [reflexivity|]. simpl.
    assert (FF : forall k i, free (with_wires st ((w, (vs, n - 1)) :: drop_wire (wires st) w)) k i <-> free st k i \/ (uses c w = Datatypes.S (cocc cs w) /\ In i (regs_of k vs))).
    { intros k i. split; [intros G; left; exact G|]. intros [G|[G _]]; [exact G|lia]. }
    assert (Back : forall w' vs' n', In (w', (vs', n')) ((w, (vs, n - 1)) :: drop_wire (wires st) w) -> exists n'', In (w', (vs', n'')) (wires st)).
    { intros w' vs' n' [I|I]; [injection I as <- <- <-; exists n; exact P|]. apply drop_wire_in in I. exists n'. apply I. }
    split; [|split; [reflexivity|split; [reflexivity|split; [exact Back|exact FF]]]].
    constructor; simpl.
    + destruct A1. constructor; auto.
    + constructor; auto.
    + intros w' vs' n' [I|I].
      * injection I as <- <- <-. split; auto. destruct (Nat.eq_dec w w); [|congruence]. split; [lia|]. split; [lia|]. auto.
      * apply drop_wire_in in I. destruct I as [I Ne]. destruct (A3 w' vs' n' I) as (P1 & P2). split; auto. destruct (Nat.eq_dec w w'); [congruence|exact P2].
    + intros w' I G. destruct (Nat.eq_dec w w') as [<-|Ne]; [left; auto|]. apply A4 in I; auto. apply in_map_iff in I. destruct I as ([w0 x] & Q & I). simpl in Q. subst. right. apply in_map_iff. exists (w', x). split; auto. apply drop_wire_in. auto.
    + intros w' vs' n' k I. destruct (Back _ _ _ I) as [n'' I']. eapply A5; eauto.
    + intros w1 vs1 n1 w2 vs2 n2 k i I J. destruct (Back _ _ _ I) as [m1 I']. destruct (Back _ _ _ J) as [m2 J']. eapply A6; eauto.
    + intros w' vs' n' k i I J G. destruct (Back _ _ _ I) as [m1 I']. apply FF in G. destruct G as [G|[G _]]; [|lia]. revert G. eapply A7; eauto.
Qed.

Definition vals (st : state) (w : wire) : list value := match find_wire (wires st) w with Some (v, _) => v | None => [] end.

Lemma input_values_spec : forall ws st dn cs, sinv st dn cs -> (forall w, In w ws -> In w dn /\ cocc cs w + cocc ws w <= uses c w) ->
  exists st', input_values st ws = Some (st', flat_map (vals st) ws) /\ sinv st' dn (ws ++ cs) /\ size st' = size st /\ cmds st' = cmds st /\
    (forall w' vs' n', In (w', (vs', n')) (wires st') -> exists n'', In (w', (vs', n'')) (wires st)) /\
    (forall k i, free st k i -> free st' k i) /\ (forall k i, free st' k i -> free st k i \/ In i (regs_of k (flat_map (vals st) ws))) /\
    (forall w, In w ws -> uses c w = 1 -> forall k i, In i (regs_of k (vals st w)) -> free st' k i) /\
    (forall w, In w ws -> exists n, find_wire (wires st) w = Some (vals st w, n)).
Proof.
  induction ws as [|w ws IH]; intros st dn cs S H.
  - exists st. simpl. split; [reflexivity|]. split; [exact S|]. split; [reflexivity|]. split; [reflexivity|]. split; [eauto|]. split; [auto|]. split; [auto|]. split; [intros w []|intros w []].
  - destruct (H w (or_introl eq_refl)) as [H1 H2]. rewrite count_occ_cons_eq in H2 by reflexivity.
    destruct (wire_values_spec st dn cs w S H1 ltac:(lia)) as (s1 & vs & n & R1 & R2 & R3 & R4 & R5 & R6 & R7).
    assert (Hh : forall w', In w' ws -> In w' dn /\ cocc (w :: cs) w' + cocc ws w' <= uses c w').
    { intros w' I. destruct (H w' (or_intror I)) as [G1 G2]. split; auto. simpl in G2 |- *. destruct (Nat.eq_dec w w'); lia. }
    assert (V : forall w', In w' ws -> vals s1 w' = vals st w').
    { intros w' I. destruct (Hh w' I) as [G1 G2]. assert (K : cocc (w :: cs) w' < uses c w') by (apply (count_occ_In Nat.eq_dec) in I; lia).
      assert (P := s_present s1 dn (w :: cs) R3 w' G1 K). apply in_map_iff in P. destruct P as ([w0 [v m]] & Q & P). simpl in Q. subst w0.
      unfold vals. rewrite (in_find_wire E (wires s1) w' (v, m) (s_names _ _ _ R3) P). destruct (R6 _ _ _ P) as [m' P'].
      rewrite (in_find_wire E (wires st) w' (v, m') (s_names _ _ _ S) P'). reflexivity. }
    destruct (IH s1 dn (w :: cs) R3 Hh) as (s2 & T1 & T2 & T3 & T4 & T5 & T6 & T7 & T8 & T9).
    assert (Vs : flat_map (vals s1) ws = flat_map (vals st) ws) by (rewrite !flat_map_concat_map; f_equal; apply map_ext_in; exact V).
    assert (Vw : vals st w = vs) by (unfold vals; rewrite R2; reflexivity).
    exists s2. split. { cbn [input_values]. rewrite R1, T1, Vs. cbn [flat_map]. rewrite Vw. reflexivity. }
    split. { eapply sinv_ext; [reflexivity| |exact T2]. intros w'. rewrite count_occ_app. simpl. rewrite count_occ_app. destruct (Nat.eq_dec w w'); lia. }
    split; [congruence|]. split; [congruence|].
    split. { intros w' vs' n' I. apply T5 in I. destruct I as [n'' I]. eapply R6; eauto. }
    split. { intros k i G. apply T6, R7. auto. }
    split. { intros k i G. apply T7 in G. cbn [flat_map]. rewrite regs_of_app, Vw, <- Vs. destruct G as [G|G]; [apply R7 in G; destruct G as [G|[_ G]]; auto; right; apply in_or_app; auto|right; apply in_or_app; auto]. }
    split.
    + intros w' I U k i J. destruct (in_dec Nat.eq_dec w' ws) as [I'|N'].
      * apply (T8 w' I' U). rewrite (V w' I'). exact J.
      * destruct I as [<-|I]; [|contradiction]. rewrite Vw in J. apply T6. apply R7. right. split; auto. lia.
    + intros w' [<-|I]; [exists n; rewrite R2, Vw; reflexivity|]. destruct (T9 w' I) as [m P]. rewrite (V w' I) in P. apply find_wire_in in P. apply R6 in P. destruct P as [m' P]. exists m'. apply in_find_wire; auto. apply (s_names _ _ _ S).
Qed.

(** ** Giving registers to the outputs of a node *)
Definition pick (a b : list nat) (k : kind) : list nat := match k with Qb => a | Bt => b end.
Definition whole (k : kind) (len : nat) (outs : list (wire * count)) : Prop :=
  forall l1 w x l2, outs = l1 ++ (w, x) :: l2 -> total k l1 + cnt x k <= len \/ len <= total k l1 \/ cnt x k = 0.
Definition regs_in (k : kind) (asg : list (wire * list value)) : list nat := flat_map (fun a => regs_of k (snd a)) asg.

Lemma alloc_both : forall st dn cs nq nb s1 s2 qn bn, sinv st dn cs -> new_units st Qb nq = (s1, qn) -> new_units s1 Bt nb = (s2, bn) ->
  sinv s2 dn cs /\ wires s2 = wires st /\ cmds s2 = cmds st /\ (forall k, size st k <= size s2 k) /\ length qn = nq /\ length bn = nb /\
  forall k, NoDup (pick qn bn k) /\ (forall i, In i (pick qn bn k) -> free st k i /\ i < size s2 k) /\ forall i, free s2 k i <-> free st k i /\ ~ In i (pick qn bn k).
Proof.
  intros st dn cs nq nb s1 s2 qn bn S X Y.
  destruct (new_units_spec Op E nq st Qb s1 qn (s_wf _ _ _ S) X) as (A1 & A2 & A3 & A4 & A5 & A6 & A7 & A8 & A9).
  destruct (new_units_spec Op E nb s1 Bt s2 bn A1 Y) as (B1 & B2 & B3 & B4 & B5 & B6 & B7 & B8 & B9).
  assert (F : forall k i, free s2 k i <-> free st k i /\ ~ In i (pick qn bn k)).
  { intros k i. destruct k; simpl.
    - destruct (B9 Qb ltac:(discriminate)) as [P1 P2]. rewrite <- A8. unfold free. rewrite P1, P2. reflexivity.
    - destruct (A9 Bt ltac:(discriminate)) as [P1 P2]. rewrite B8. unfold free. rewrite P1, P2. reflexivity. }
  split. { apply (sinv_same st s2); [exact B1|congruence| |exact S]. intros k i G. apply F in G. apply G. }
  split; [congruence|]. split; [congruence|].
  split. { intros k. specialize (A7 k). specialize (B7 k). lia. }
  split; [exact A4|]. split; [exact B4|]. intros k. split; [destruct k; auto|]. split; [|apply F].
  intros i I. destruct k; simpl in I.
  - apply A6 in I. split; [apply I|]. specialize (B7 Qb). lia.
  - apply B6 in I. destruct I as [I L]. split; auto. destruct (A9 Bt ltac:(discriminate)) as [P1 P2]. unfold free in *. rewrite P1, P2 in I. exact I.
Qed.

Lemma regs_of_pair : forall k a b, regs_of k (map (@Reg E Qb) a ++ map (Reg Bt) b) = pick a b k.
Proof. intros k a b. rewrite regs_of_app. destruct k; rewrite regs_of_reg, regs_of_reg' by discriminate; simpl; rewrite ?app_nil_r; reflexivity. Qed.
Lemma regs_of_pair3 : forall k a b p, regs_of k (map (@Reg E Qb) a ++ map (Reg Bt) b ++ map Par p) = pick a b k.
Proof. intros k a b p. rewrite app_assoc, regs_of_app, regs_of_pair, regs_of_par, app_nil_r. reflexivity. Qed.

Lemma total_cons : forall k w x outs, total k ((w, x) :: outs) = cnt x k + total k outs.
Proof. reflexivity. Qed.

Lemma register_outputs_spec : forall outs st dn cs rq rb, sinv st dn cs -> NoDup (map fst outs) ->
  (forall w x, In (w, x) outs -> ~ In w dn /\ cocc cs w = 0 /\ count_of c w = x /\ cp x = 0) ->
  (forall k, NoDup (firstn (total k outs) (pick rq rb k)) /\ (forall i, In i (firstn (total k outs) (pick rq rb k)) -> free st k i /\ i < size st k) /\
             whole k (length (pick rq rb k)) outs) ->
  (forall l1 w x l2, outs = l1 ++ (w, x) :: l2 -> l2 <> [] -> uses c w > 0) ->
  exists st' qn bn asg, register_outputs c st rq rb outs = Some (st', qn, bn) /\ sinv st' (map fst outs ++ dn) cs /\ cmds st' = cmds st /\
    map fst asg = map fst outs /\ Forall2 (fun x a => (forall k, length (regs_of k (snd a)) = cnt (snd x) k) /\ pars_of (snd a) = []) outs asg /\
    (forall w vs n, In (w, (vs, n)) (wires st') -> In (w, (vs, n)) (wires st) \/ In (w, vs) asg) /\
    forall k, regs_in k asg = firstn (total k outs) (pick rq rb k) ++ pick qn bn k /\ length (pick qn bn k) = total k outs - length (pick rq rb k) /\
      NoDup (regs_in k asg) /\ (forall i, In i (regs_in k asg) -> free st k i) /\
      forall i, free st' k i -> free st k i /\ (In i (regs_in k asg) -> exists w x, In (w, x) outs /\ uses c w = 0 /\ 0 < cnt x k).
Proof.
  induction outs as [|[w x] outs IH]; intros st dn cs rq rb S N H R D.
  - exists st, [], [], []. cbn [register_outputs]. split; [reflexivity|]. split; [exact S|]. split; [reflexivity|]. split; [reflexivity|]. split; [constructor|]. split; [auto|].
    intros k. split; [destruct k; reflexivity|]. split; [destruct k; reflexivity|]. split; [constructor|]. split; [intros i []|]. intros i G. split; [exact G|intros []].
  - cbn [map] in N. inversion N as [|? ? N1 N2]; subst. destruct (H w x (or_introl eq_refl)) as (H1 & H2 & H3 & H4).
    cbn [register_outputs]. destruct (new_units st Qb (cq x - length rq)) as [s1 qn] eqn:X. destruct (new_units s1 Bt (cb x - length rb)) as [s2 bn] eqn:Y.
    destruct (alloc_both _ _ _ _ _ _ _ _ _ S X Y) as (S2 & A1 & A2 & A3 & A4 & A5 & A6).
    set (vs := map (@Reg E Qb) (firstn (cq x) rq ++ qn) ++ map (Reg Bt) (firstn (cb x) rb ++ bn)).
    assert (RV : forall k, regs_of k vs = firstn (cnt x k) (pick rq rb k) ++ pick qn bn k) by (intros k; unfold vs; rewrite regs_of_pair; destruct k; reflexivity).
    assert (LN : forall k, length (pick qn bn k) = cnt x k - length (pick rq rb k)) by (intros []; simpl; auto).
    assert (Cases : forall k, pick qn bn k = [] \/ pick rq rb k = []).
    { intros k. destruct (R k) as (_ & _ & Wh). specialize (Wh [] w x outs eq_refl). change (total k []) with 0 in Wh. specialize (LN k).
      destruct Wh as [Wh|[Wh|Wh]]; [left; destruct (pick qn bn k); auto; cbn [length] in LN; lia|right; destruct (pick rq rb k); auto; cbn [length] in Wh; lia|left; destruct (pick qn bn k); auto; cbn [length] in LN; lia]. }
    assert (RF : forall k, NoDup (firstn (cnt x k) (pick rq rb k)) /\ (forall i, In i (firstn (cnt x k) (pick rq rb k)) -> free st k i /\ i < size st k) /\
                 NoDup (firstn (total k outs) (skipn (cnt x k) (pick rq rb k))) /\ (forall i, In i (firstn (total k outs) (skipn (cnt x k) (pick rq rb k))) -> free st k i /\ i < size st k /\ ~ In i (firstn (cnt x k) (pick rq rb k)))).
    { intros k. destruct (R k) as (R1 & R2 & _). rewrite total_cons, firstn_add in R1, R2. apply NoDup_app_iff in R1. destruct R1 as (R1 & R3 & R4).
      split; [exact R1|]. split; [intros i I; apply R2; apply in_or_app; auto|]. split; [exact R3|]. intros i I. split; [apply R2; apply in_or_app; auto|]. split; [apply R2; apply in_or_app; auto|]. intros F. apply (R4 i); auto. }
    assert (VF : forall k i, In i (regs_of k vs) -> free st k i /\ i < size s2 k).
    { intros k i I. rewrite RV in I. apply in_app_or in I. destruct I as [I|I].
      - destruct (RF k) as (_ & G & _). apply G in I. split; [apply I|]. specialize (A3 k). lia.
      - destruct (A6 k) as (_ & G & _). apply G in I. exact I. }
    assert (VN : forall k, NoDup (regs_of k vs)).
    { intros k. rewrite RV. destruct (Cases k) as [Q|Q]; rewrite Q; [rewrite app_nil_r; apply (RF k)|rewrite firstn_nil; apply (A6 k)]. }
    assert (Lk : forall k, length (regs_of k vs) = cnt x k). { intros k. rewrite RV, app_length, firstn_length, LN. lia. }
    assert (Pv : pars_of vs = []) by (unfold vs; rewrite pars_of_app, !pars_of_reg; reflexivity).
    destruct (register_wire_spec s2 dn cs w vs S2 H1 H2) as (s3 & B1 & B2 & B3 & B4 & B5 & B6).
    + intros k. split; [apply VN|]. split; [intros i I; apply (VF k i I)|]. intros w' vs' n' i I J F. apply VF in F. rewrite A1 in I. exact (s_live _ _ _ S w' vs' n' k i I J (proj1 F)).
    + intros k. rewrite H3. apply Lk.
    + rewrite Pv, H3, H4. reflexivity.
    + rewrite B1.
      assert (D' : outs <> [] -> uses c w > 0) by (intros Ne; apply (D [] w x outs); auto).
      destruct (IH s3 (w :: dn) cs (skipn (cq x) rq) (skipn (cb x) rb) B2 N2) as (s4 & qn' & bn' & asg & C1 & C2 & C3 & C4 & C5 & C6 & C7).
      * intros w' x' I. destruct (H w' x' (or_intror I)) as (G1 & G2 & G3). split; [|split; [exact G2|exact G3]]. intros [<-|F]; [|auto]. apply N1. apply (in_map fst) in I. exact I.
      * intros k. assert (Q : pick (skipn (cq x) rq) (skipn (cb x) rb) k = skipn (cnt x k) (pick rq rb k)) by (destruct k; reflexivity). rewrite Q.
        destruct (RF k) as (_ & _ & G1 & G2). split; [exact G1|]. split.
        -- intros i I. destruct (G2 i I) as (K1 & K2 & K3). split; [|rewrite B3; specialize (A3 k); lia].
           apply B6. left. assert (Ni : ~ In i (pick qn bn k)). { destruct (Cases k) as [Q0|Q0]; [rewrite Q0; auto|]. rewrite Q0, skipn_nil, firstn_nil in I. destruct I. }
           split; [apply (A6 k); auto|]. rewrite RV. intros F. apply in_app_or in F. tauto.
        -- rewrite skipn_length. intros l1 w' x' l2 Eq. destruct (R k) as (_ & _ & Wh). specialize (Wh ((w, x) :: l1) w' x' l2). rewrite Eq in Wh. specialize (Wh eq_refl). rewrite total_cons in Wh. lia.
      * intros l1 w' x' l2 Eq Ne. apply (D ((w, x) :: l1) w' x' l2); auto. rewrite Eq. reflexivity.
      * rewrite C1. exists s4, (qn ++ qn'), (bn ++ bn'), ((w, vs) :: asg). split; [reflexivity|].
        split. { eapply sinv_ext; [|reflexivity|exact C2]. intros w'. cbn [map app]. rewrite !in_app_iff. cbn [In]. rewrite in_app_iff. simpl. tauto. }
        split; [congruence|]. split; [simpl; f_equal; exact C4|]. split; [constructor; auto|].
        split. { intros w' vs' n' I. apply C6 in I. destruct I as [I|I]; [|right; right; exact I]. rewrite B5, A1 in I. destruct (Nat.eqb (uses c w) 0); [auto|]. destruct I as [I|I]; [injection I as <- <- <-; right; left; reflexivity|auto]. }
        intros k. destruct (C7 k) as (E1 & E2 & E3 & E4 & E5).
        assert (Q : pick (skipn (cq x) rq) (skipn (cb x) rb) k = skipn (cnt x k) (pick rq rb k)) by (destruct k; reflexivity). rewrite Q in E1, E2.
        assert (Q2 : pick (qn ++ qn') (bn ++ bn') k = pick qn bn k ++ pick qn' bn' k) by (destruct k; reflexivity). rewrite Q2.
        assert (Rg : regs_in k ((w, vs) :: asg) = regs_of k vs ++ regs_in k asg) by reflexivity. rewrite Rg.
        assert (Dead : forall i, In i (regs_of k vs) -> free s3 k i -> uses c w = 0). { intros i I G. apply B6 in G. destruct G as [[_ G]|[G _]]; [contradiction|exact G]. }
        assert (F3 : forall i, free s3 k i -> free st k i). { intros i G. apply B6 in G. destruct G as [[G _]|[_ G]]; [apply (A6 k) in G; apply G|]. apply VF in G. apply G. }
        split. { rewrite RV, E1, total_cons, firstn_add, <- !app_assoc. f_equal. destruct (Cases k) as [Q0|Q0]; rewrite Q0; simpl; [reflexivity|]. rewrite !skipn_nil, !firstn_nil. reflexivity. }
        split. { rewrite app_length, LN, E2, skipn_length, total_cons. lia. }
        split. { apply NoDup_app_iff. split; [apply VN|]. split; [exact E3|]. intros i I J. assert (U := Dead i I (E4 i J)). destruct outs as [|o outs]; [|assert (uses c w > 0) by (apply D'; discriminate); lia].
                 destruct asg; [destruct J|simpl in C4; discriminate]. }
        split. { intros i I. apply in_app_or in I. destruct I as [I|I]; [apply VF in I; apply I|apply F3, E4; exact I]. }
        intros i G. destruct (E5 i G) as [G1 G2]. split; [apply F3; exact G1|]. intros I. apply in_app_or in I. destruct I as [I|I].
        -- exists w, x. split; [left; auto|]. split; [eapply Dead; eauto|]. specialize (Lk k). destruct (regs_of k vs); [destruct I|simpl in Lk; lia].
        -- destruct (G2 I) as (w' & x' & K1 & K2). exists w', x'. split; [right; auto|exact K2].
Qed.

(** ** Passing registers on *)
Lemma forward_spec : forall outs st dn cs qs bs ps, sinv st dn cs -> NoDup (map fst outs) ->
  (forall w x, In (w, x) outs -> ~ In w dn /\ cocc cs w = 0 /\ count_of c w = x) ->
  (forall k, NoDup (pick qs bs k) /\ (forall i, In i (pick qs bs k) -> free st k i /\ i < size st k) /\ length (pick qs bs k) = total k outs) ->
  length ps = total_p outs ->
  exists st' asg, forward c st qs bs ps outs = Some st' /\ sinv st' (map fst outs ++ dn) cs /\ cmds st' = cmds st /\
    map fst asg = map fst outs /\ Forall2 (fun x a => (forall k, length (regs_of k (snd a)) = cnt (snd x) k) /\ length (pars_of (snd a)) = cp (snd x)) outs asg /\
    (forall w vs n, In (w, (vs, n)) (wires st') -> In (w, (vs, n)) (wires st) \/ In (w, vs) asg) /\
    flat_map (fun a => pars_of (snd a)) asg = ps /\
    forall k, regs_in k asg = pick qs bs k /\
      forall i, free st' k i -> free st k i /\ (In i (pick qs bs k) -> exists w x, In (w, x) outs /\ uses c w = 0 /\ 0 < cnt x k).
Proof.
  induction outs as [|[w x] outs IH]; intros st dn cs qs bs ps S N H R P.
  - exists st, []. cbn [forward]. split; [reflexivity|]. split; [exact S|]. split; [reflexivity|]. split; [reflexivity|]. split; [constructor|]. split; [auto|].
    assert (Q : forall k, pick qs bs k = []) by (intros k; destruct (R k) as (_ & _ & L); destruct (pick qs bs k); [auto|discriminate]).
    split; [destruct ps; [reflexivity|discriminate]|]. intros k. rewrite Q. split; [reflexivity|]. intros i G. split; [exact G|intros []].
  - cbn [map] in N. inversion N as [|? ? N1 N2]; subst. destruct (H w x (or_introl eq_refl)) as (H1 & H2 & H3).
    cbn [forward]. set (vs := map (@Reg E Qb) (firstn (cq x) qs) ++ map (Reg Bt) (firstn (cb x) bs) ++ map Par (firstn (cp x) ps)).
    assert (RV : forall k, regs_of k vs = firstn (cnt x k) (pick qs bs k)) by (intros k; unfold vs; rewrite regs_of_pair3; destruct k; reflexivity).
    assert (Pv : pars_of vs = firstn (cp x) ps) by (unfold vs; rewrite !pars_of_app, !pars_of_reg, pars_of_par; reflexivity).
    assert (Tp : total_p ((w, x) :: outs) = cp x + total_p outs) by reflexivity. rewrite Tp in P.
    assert (RF : forall k, NoDup (firstn (cnt x k) (pick qs bs k)) /\ NoDup (skipn (cnt x k) (pick qs bs k)) /\ (forall i, In i (firstn (cnt x k) (pick qs bs k)) -> ~ In i (skipn (cnt x k) (pick qs bs k)))).
    { intros k. destruct (R k) as (R1 & _ & _). rewrite <- (firstn_skipn (cnt x k) (pick qs bs k)) in R1. apply NoDup_app_iff in R1. exact R1. }
    assert (Lk : forall k, length (regs_of k vs) = cnt x k). { intros k. destruct (R k) as (_ & _ & L). rewrite total_cons in L. rewrite RV, firstn_length. lia. }
    assert (VF : forall k i, In i (regs_of k vs) -> free st k i /\ i < size st k). { intros k i I. rewrite RV in I. apply firstn_In in I. apply (R k) in I. exact I. }
    destruct (register_wire_spec st dn cs w vs S H1 H2) as (s3 & B1 & B2 & B3 & B4 & B5 & B6).
    + intros k. split; [rewrite RV; apply (RF k)|]. split; [intros i I; apply (VF k i I)|]. intros w' vs' n' i I J F. apply VF in F. exact (s_live _ _ _ S w' vs' n' k i I J (proj1 F)).
    + intros k. rewrite H3. apply Lk.
    + rewrite Pv, H3, firstn_length. lia.
    + rewrite B1. destruct (IH s3 (w :: dn) cs (skipn (cq x) qs) (skipn (cb x) bs) (skipn (cp x) ps) B2 N2) as (s4 & asg & C1 & C2 & C3 & C4 & C5 & C6 & C7 & C8).
      * intros w' x' I. destruct (H w' x' (or_intror I)) as (G1 & G2 & G3). split; [|split; [exact G2|exact G3]]. intros [<-|F]; [|auto]. apply N1. apply (in_map fst) in I. exact I.
      * intros k. assert (Q : pick (skipn (cq x) qs) (skipn (cb x) bs) k = skipn (cnt x k) (pick qs bs k)) by (destruct k; reflexivity). rewrite Q.
        split; [apply (RF k)|]. split.
        -- intros i I. assert (I' := skipn_In _ _ _ _ I). apply (R k) in I'. split; [|rewrite B3; apply I']. apply B6. left. split; [apply I'|]. rewrite RV. intros F. apply (RF k) in F. contradiction.
        -- destruct (R k) as (_ & _ & L). rewrite total_cons in L. rewrite skipn_length. lia.
      * rewrite skipn_length. lia.
      * rewrite C1. exists s4, ((w, vs) :: asg). split; [reflexivity|].
        split. { eapply sinv_ext; [|reflexivity|exact C2]. intros w'. cbn [map app]. rewrite !in_app_iff. cbn [In]. rewrite in_app_iff. simpl. tauto. }
        split; [congruence|]. split; [simpl; f_equal; exact C4|]. split; [constructor; [split; [exact Lk|simpl; rewrite Pv, firstn_length; lia]|exact C5]|].
        split. { intros w' vs' n' I. apply C6 in I. destruct I as [I|I]; [|right; right; exact I]. rewrite B5 in I. destruct (Nat.eqb (uses c w) 0); [auto|]. destruct I as [I|I]; [injection I as <- <- <-; right; left; reflexivity|auto]. }
        split. { cbn [flat_map snd]. rewrite C7, Pv. apply firstn_skipn. }
        intros k. destruct (C8 k) as (E1 & E5).
        assert (Q : pick (skipn (cq x) qs) (skipn (cb x) bs) k = skipn (cnt x k) (pick qs bs k)) by (destruct k; reflexivity). rewrite Q in E1, E5.
        split. { cbn [regs_in flat_map snd]. unfold regs_in in E1. rewrite E1, RV. apply firstn_skipn. }
        intros i G. destruct (E5 i G) as [G1 G2]. split.
        -- apply B6 in G1. destruct G1 as [[G1 _]|[_ G1]]; [exact G1|]. apply VF in G1. apply G1.
        -- intros I. rewrite <- (firstn_skipn (cnt x k) (pick qs bs k)) in I. apply in_app_or in I. destruct I as [I|I].
           ++ exists w, x. split; [left; auto|]. rewrite <- RV in I. split; [apply B6 in G1; destruct G1 as [[_ G1]|[G1 _]]; [contradiction|exact G1]|]. specialize (Lk k). destruct (regs_of k vs); [destruct I|simpl in Lk; lia].
           ++ destruct (G2 I) as (w' & x' & K1 & K2). exists w', x'. split; [right; auto|exact K2].
Qed.
End Inv.
Arguments sinv {Op E}. Arguments vals {Op E}. Arguments regs_in {E}.
