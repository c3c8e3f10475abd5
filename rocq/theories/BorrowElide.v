(** Eliding one return/borrow pair keeps a region well-formed and typed. *)
From Coq Require Import List Bool Arith Lia.
From Verif Require Import BorrowSpec BorrowModel BorrowGraph BorrowSol.
Import ListNotations.

Section Chains.
Variable O : Type.
Notation graph := (graph O).
Notation node := (node O).
Definition akind (a : action) : kind O := match a with ABorrow => KBorrow | AReturn => KReturn end.
Definition onode (op : aop) : nat := fst (fst op).
Definition oidx (op : aop) : nat := snd (fst op).
Definition oact (op : aop) : action := snd op.
(** [op] is the operation that the array wire [w] goes to. *)
Definition link (g : graph) (w : wire) (op : aop) : Prop :=
  exists m ix rest, In m g /\ nid m = onode op /\ knd m = akind (oact op) /\ ins m = w :: ix :: rest /\
    exists c, In c g /\ nid c = fst ix /\ knd c = KConst (oidx op).
Fixpoint chain (g : graph) (w : wire) (ops : list aop) : Prop :=
  match ops with [] => True | op :: ops => link g w op /\ chain g (onode op, 0) ops end.
Fixpoint cend (w : wire) (ops : list aop) : wire := match ops with [] => w | op :: ops => cend (onode op, 0) ops end.

Lemma chain_app : forall g l1 l2 w, chain g w (l1 ++ l2) <-> chain g w l1 /\ chain g (cend w l1) l2.
Proof. intros g l1. induction l1 as [|op l1 IH]; intros l2 w; simpl; [tauto|]. rewrite IH. tauto. Qed.
Lemma cend_app : forall l1 l2 w, cend w (l1 ++ l2) = cend (cend w l1) l2.
Proof. induction l1 as [|op l1 IH]; intros l2 w; simpl; [reflexivity|apply IH]. Qed.
Lemma cend_in : forall l w, (l = [] /\ cend w l = w) \/ exists op, In op l /\ cend w l = (onode op, 0).
Proof.
  induction l as [|op l IH]; intro w; [left; auto|]. right. simpl. destruct (IH (onode op, 0)) as [[-> E]|(x & Hx & E)]; [exists op; auto|exists x; auto].
Qed.

Definition out (op : aop) : wire := (onode op, 0).
Lemma cend_out : forall l w, In (cend w l) (w :: map out l).
Proof. intros l w. destruct (cend_in l w) as [[_ ->]|(op & H & ->)]; [left; reflexivity|]. right. change (onode op, 0) with (out op). apply in_map, H. Qed.
Lemma chain_consumer : forall g l x w, chain g w (l ++ [x]) -> forall w', In w' (w :: map out l) -> exists op, In op (l ++ [x]) /\ link g w' op.
Proof.
  intros g l x. induction l as [|y l IH]; intros w C w' H; simpl in *.
  - destruct H as [<-|[]]. exists x. tauto.
  - destruct C as [L C]. destruct H as [<-|H]; [exists y; auto|]. destruct (IH _ C w') as (op & H1 & H2); [exact H|]. exists op. auto.
Qed.
Lemma chain_wire : forall g l w, chain g w l -> forall op, In op l -> exists w', In w' (w :: map out l) /\ link g w' op.
Proof.
  intros g l. induction l as [|y l IH]; intros w C op H; simpl in *; [destruct H|]. destruct C as [L C]. destruct H as [<-|H]; [exists w; auto|].
  destruct (IH _ C op H) as (w' & H1 & H2). exists w'. split; [|assumption]. right. exact H1.
Qed.
End Chains.

Section Elide.
Variables (O T : Type) (is_array : T -> bool) (elem : T -> T) (ty : wire -> T).
Notation graph := (graph O).
Notation node := (node O).
Definition wfg (g : graph) : Prop := topological g /\ typed is_array elem ty g.

Notation akind := (akind O).
Notation link := (link O).
Notation chain := (chain O).
Lemma link_typed : forall g w op, wfg g -> link g w op -> is_array (ty w) = true /\ ty (onode op, 0) = ty w /\ uses g w = 1 /\ produced g w /\ rank O g (fst w) < rank O g (onode op).
Proof.
  intros g w op [Tp [L S]] (m & ix & rest & Hm & En & Ek & Ei & _). apply topological_ranked in Tp. destruct Tp as [N R].
  destruct (R m w Hm) as [Pw Rw]; [rewrite Ei; left; reflexivity|]. rewrite En in Rw. pose proof (S m Hm) as Sm. rewrite Ek in Sm.
  assert (X : is_array (ty w) = true /\ ty (onode op, 0) = ty w).
  { rewrite <- En. destruct (oact op); simpl in Sm.
    - destruct Sm as (a & i & E & A & _ & B & _). rewrite Ei in E. injection E as <- _ _. auto.
    - destruct Sm as (a & i & v & E & A & _ & B & _). rewrite Ei in E. injection E as <- _ _. auto. }
  destruct X as [X1 X2]. repeat split; auto.
Qed.
Lemma chain_ty : forall g ops w, wfg g -> chain g w ops -> ty (cend w ops) = ty w.
Proof. intros g ops. induction ops as [|op ops IH]; intros w W C; simpl in *; [reflexivity|]. destruct C as [L C]. rewrite (IH _ W C). apply (link_typed g w op W L). Qed.
Lemma chain_rank : forall g ops w, wfg g -> chain g w ops -> forall op, In op ops -> rank O g (fst w) < rank O g (onode op).
Proof.
  intros g ops. induction ops as [|x ops IH]; intros w W C op H; [destruct H|]. simpl in C. destruct C as [L C]. pose proof (link_typed g w x W L) as (_ & _ & _ & _ & R).
  destruct H as [<-|H]; [assumption|]. specialize (IH _ W C op H). simpl in IH. lia.
Qed.
Lemma chain_cend_rank : forall g ops w, wfg g -> chain g w ops -> rank O g (fst w) <= rank O g (fst (cend w ops)).
Proof. intros g ops w W C. destruct (cend_in ops w) as [[_ ->]|(op & H & ->)]; [lia|]. pose proof (chain_rank g ops w W C op H). simpl. lia. Qed.

Lemma sub_id : forall w w' x, x <> w -> sub w w' x = x.
Proof. intros w w' x H. unfold sub. destruct (wire_dec x w); congruence. Qed.


Section Values.
Variables (X : Type) (sem : O -> list (val X) -> option (list (val X))).
Lemma hold_link : forall g e w op, wfg g -> sol O X sem g e -> link g w op -> exists c, e w = Some (VA c) /\
  match oact op with
  | ABorrow => exists v, nth_error c (oidx op) = Some (Some v) /\ e (onode op, 0) = Some (VA (set_cell (oidx op) None c)) /\ e (onode op, 1) = Some v
  | AReturn => exists v, nth_error c (oidx op) = Some None /\ e (onode op, 0) = Some (VA (set_cell (oidx op) (Some v) c)) /\
      forall m a0 ix wv, In m g -> nid m = onode op -> ins m = [a0; ix; wv] -> e wv = Some v
  end.
Proof.
  intros g e w op [Tp [Ty1 Ty2]] [S0 S1] (m & ix & rest & Hm & En & Ek & Ei & k & Hk & Ek1 & Ek2).
  assert (N : NoDup (map nid g)) by apply Tp.
  assert (Ex : e ix = Some (VI (oidx op))).
  { apply topological_ranked in Tp. destruct Tp as [_ R]. destruct (R m ix Hm) as [(k' & Hk' & E1' & L') _]; [rewrite Ei; simpl; auto|].
    assert (k' = k) by (apply (node_unique O g); auto; congruence). subst k'. rewrite Ek2 in L'. simpl in L'.
    destruct (S0 k Hk) as (vs & outs & Rd & Ev & Po). specialize (Ty2 k Hk). rewrite Ek2 in Ty2. destruct Ty2 as [Ein _]. rewrite Ein in Rd. injection Rd as <-. rewrite Ek2 in Ev. injection Ev as <-.
    destruct ix as [x1 x2]. simpl in *. subst x1. rewrite Po. assert (x2 = 0) by lia. subst. reflexivity. }
  destruct (S0 m Hm) as (vs & outs & Rd & Ev & Po). pose proof (Ty2 m Hm) as Q. rewrite Ek in Q, Ev. rewrite Ei in Rd. cbn [read] in Rd. rewrite Ex in Rd.
  destruct (oact op); simpl in Q, Ev.
  - destruct Q as (a & j & E & _). rewrite Ei in E. injection E as _ _ ->. cbn [read] in Rd. destruct (e w) as [[c|?|?]|]; try discriminate; injection Rd as <-; try discriminate.
    destruct (nth_error c (oidx op)) as [[v|]|] eqn:Nc; try discriminate. injection Ev as <-. exists c. split; [reflexivity|]. exists v. split; [first [assumption|reflexivity]|]. rewrite <- En, !Po. auto.
  - destruct Q as (a & j & wv & E & _). rewrite Ei in E. injection E as _ _ ->. cbn [read] in Rd. destruct (e w) as [x|] eqn:Ew; [|discriminate]. destruct (e wv) as [v|] eqn:Ewv; [|discriminate]. injection Rd as <-.
    destruct x as [c|?|?]; try discriminate. destruct (nth_error c (oidx op)) as [[?|]|] eqn:Nc; try discriminate. injection Ev as <-. exists c. split; [reflexivity|]. exists v. split; [first [assumption|reflexivity]|]. rewrite <- En, !Po. split; [reflexivity|].
    intros m' a0 ix' wv' Hm' En' Ei'. assert (m' = m) by (apply (node_unique O g); auto; congruence). subst m'. rewrite Ei in Ei'. injection Ei' as _ _ <-. assumption.
Qed.
Lemma link_ix : forall g e w op m w' ix rest, wfg g -> sol O X sem g e -> link g w op -> In m g -> nid m = onode op -> ins m = w' :: ix :: rest -> e ix = Some (VI (oidx op)).
Proof.
  intros g e w op m w' ix rest [Tp [Ty1 Ty2]] [S0 S1] (m' & ix' & rest' & Hm' & En' & Ek & Ei' & k & Hk & Ek1 & Ek2) Hm En Ei.
  assert (N : NoDup (map nid g)) by apply Tp. assert (m' = m) by (apply (node_unique O g); auto; congruence). subst m'. rewrite Ei in Ei'. injection Ei' as _ <- _.
  apply topological_ranked in Tp. destruct Tp as [_ R]. destruct (R m ix Hm) as [(k' & Hk' & E1' & L') _]; [rewrite Ei; simpl; auto|].
  assert (k' = k) by (apply (node_unique O g); auto; congruence). subst k'. rewrite Ek2 in L'. simpl in L'.
  destruct (S0 k Hk) as (vs & outs & Rd & Ev & Po). specialize (Ty2 k Hk). rewrite Ek2 in Ty2. destruct Ty2 as [Ein _]. rewrite Ein in Rd. injection Rd as <-. rewrite Ek2 in Ev. injection Ev as <-.
  destruct ix as [x1 x2]. simpl in *. subst x1. rewrite Po. assert (x2 = 0) by lia. subst. reflexivity.
Qed.
Lemma cell_along : forall i x l g e w, wfg g -> sol O X sem g e -> chain g w l -> ~ In i (map oidx l) -> (exists c, e w = Some (VA c) /\ nth_error c i = x) ->
  forall w', In w' (w :: map out l) -> exists c, e w' = Some (VA c) /\ nth_error c i = x.
Proof.
  intros i x l. induction l as [|op l IH]; intros g e w Wg Sg C Ni H w' Hw'.
  - destruct Hw' as [<-|[]]. exact H.
  - destruct Hw' as [<-|Hw']; [exact H|]. destruct C as [L C]. apply (IH g e (onode op, 0) Wg Sg C); [intro K; apply Ni; right; assumption| |exact Hw'].
    destruct H as (c & Ec & Ni'). assert (D : oidx op <> i) by (intro K; apply Ni; left; assumption).
    destruct (hold_link g e w op Wg Sg L) as (c1 & E1' & Q). rewrite Ec in E1'. injection E1' as <-.
    destruct (oact op); [destruct Q as (v & _ & E & _)|destruct Q as (v & _ & E & _)]; eexists; (split; [exact E|]); rewrite nth_set_other by assumption; assumption.
Qed.
End Values.

(** ** The pair *)
Section Pair.
Variables (g : graph) (a a2 v ixr ixb : wire) (r b : node).
Hypothesis W : wfg g.
Hypothesis Hr : In r g.
Hypothesis Hb : In b g.
Hypothesis Kr : knd r = KReturn.
Hypothesis Kb : knd b = KBorrow.
Hypothesis Ir : ins r = [a; ixr; v].
Hypothesis Ib : ins b = [a2; ixb].
(** The array leaves [r], possibly goes through other operations, and enters [b]. *)
Hypothesis a2_or : a2 = (nid r, 0) \/ (rank O g (nid r) < rank O g (fst a2)).
Hypothesis Ta2 : ty a2 = ty a.

Definition sr (w : wire) : wire := if wire_dec w (nid r, 0) then a else w.
Definition sigma (w : wire) : wire := if wire_dec w (nid b, 1) then v else if wire_dec w (nid b, 0) then sr a2 else sr w.
Definition keep (n : nat) : bool := negb (Nat.eqb n (nid r)) && negb (Nat.eqb n (nid b)).
Definition result : graph := map (fun m => with_ins O m (map sigma (ins m))) (filter (fun m => keep (nid m)) g).

Lemma Nd : NoDup (map nid g).
Proof. apply W. Qed.
Lemma Rk : forall m w, In m g -> In w (ins m) -> produced g w /\ rank O g (fst w) < rank O g (nid m).
Proof. destruct W as [Tp _]. apply topological_ranked in Tp. apply Tp. Qed.
Lemma Sh : forall w, produced g w -> is_array (ty w) = true -> uses g w = 1.
Proof. destruct W as [_ [H _]]. exact H. Qed.
Lemma Tr : is_array (ty a) = true /\ is_array (ty ixr) = false /\ ty (nid r, 0) = ty a /\ ty v = elem (ty a).
Proof. destruct W as [_ [_ H]]. specialize (H r Hr). rewrite Kr in H. destruct H as (x & y & z & E & H). rewrite Ir in E. injection E as <- <- <-. exact H. Qed.
Lemma Tb : is_array (ty a2) = true /\ is_array (ty ixb) = false /\ ty (nid b, 0) = ty a2 /\ ty (nid b, 1) = elem (ty a2).
Proof. destruct W as [_ [_ H]]. specialize (H b Hb). rewrite Kb in H. destruct H as (x & y & E & H). rewrite Ib in E. injection E as <- <-. exact H. Qed.
Lemma ranks : rank O g (fst a) < rank O g (nid r) /\ rank O g (fst v) < rank O g (nid r) /\ rank O g (fst ixr) < rank O g (nid r) /\
  rank O g (fst a2) < rank O g (nid b) /\ rank O g (fst ixb) < rank O g (nid b) /\ rank O g (nid r) <= rank O g (fst a2).
Proof.
  split; [apply Rk; [assumption|rewrite Ir; simpl; auto]|]. split; [apply Rk; [assumption|rewrite Ir; simpl; auto]|]. split; [apply Rk; [assumption|rewrite Ir; simpl; auto]|].
  split; [apply Rk; [assumption|rewrite Ib; simpl; auto]|]. split; [apply Rk; [assumption|rewrite Ib; simpl; auto]|]. destruct a2_or as [->|H]; simpl; lia.
Qed.
Lemma r_neq_b : nid r <> nid b.
Proof. pose proof ranks as R. intro E. rewrite E in R. lia. Qed.
Lemma prod_r : produced g (nid r, 0).
Proof. exists r. simpl. rewrite Kr. simpl. auto with arith. Qed.
Lemma prod_b : forall p, p < 2 -> produced g (nid b, p).
Proof. intros p L. exists b. simpl. rewrite Kb. auto. Qed.
Lemma uses_r : uses g (nid r, 0) = 1.
Proof. apply Sh; [apply prod_r|]. destruct Tr as (A & _ & -> & _). exact A. Qed.
Lemma uses_b : uses g (nid b, 0) = 1.
Proof. apply Sh; [apply prod_b; lia|]. destruct Tb as (A & _ & -> & _). exact A. Qed.
Lemma prod_a : produced g a.
Proof. apply (Rk r); [assumption|rewrite Ir; simpl; auto]. Qed.
Lemma prod_v : produced g v.
Proof. apply (Rk r); [assumption|rewrite Ir; simpl; auto]. Qed.
Lemma prod_a2 : produced g a2.
Proof. apply (Rk b); [assumption|rewrite Ib; simpl; auto]. Qed.
Lemma uses_a : uses g a = 1.
Proof. apply Sh; [apply prod_a|apply Tr]. Qed.
Lemma uses_a2 : uses g a2 = 1.
Proof. apply Sh; [apply prod_a2|apply Tb]. Qed.
Lemma a_neq_v : a <> v.
Proof. destruct (sole_user O g a r [ixr; v] r Nd uses_a Hr Ir Hr) as [_ H]; [rewrite Ir; simpl; auto|]. intros ->. apply H. simpl. auto. Qed.
Lemma a2_neq_v : a2 <> v.
Proof.
  intro E. destruct (sole_user O g a2 b [ixb] r Nd uses_a2 Hb Ib Hr) as [H _]; [rewrite Ir, E; simpl; auto|]. apply r_neq_b. rewrite H. reflexivity.
Qed.
Lemma a_neq_a2 : a <> a2.
Proof. intro E. pose proof ranks as R. rewrite E in R. lia. Qed.
Lemma v_not : forall p, v <> (nid b, p) /\ v <> (nid r, p).
Proof. intro p. pose proof ranks as R. split; intro E; rewrite E in R; simpl in R; lia. Qed.
Lemma a_not : forall p, a <> (nid b, p) /\ a <> (nid r, p).
Proof. intro p. pose proof ranks as R. split; intro E; rewrite E in R; simpl in R; lia. Qed.
Lemma a2_not : forall p, a2 <> (nid b, p).
Proof. intro p. pose proof ranks as R. intro E; rewrite E in R; simpl in R; lia. Qed.
Lemma ixb_not : forall p, ixb <> (nid b, p).
Proof. intro p. pose proof ranks as R. intro E; rewrite E in R; simpl in R; lia. Qed.
Lemma ixr_not : forall p, ixr <> (nid b, p) /\ ixr <> (nid r, p).
Proof. intro p. pose proof ranks as R. split; intro E; rewrite E in R; simpl in R; lia. Qed.

Lemma sigma_ty : forall w, ty (sigma w) = ty w.
Proof.
  destruct Tr as (_ & _ & T1 & T2). destruct Tb as (_ & _ & T3 & T4).
  assert (S1 : forall w, ty (sr w) = ty w) by (intro w; unfold sr; destruct (wire_dec w (nid r, 0)) as [->|]; congruence).
  intro w. unfold sigma. destruct (wire_dec w (nid b, 1)) as [->|]; [congruence|]. destruct (wire_dec w (nid b, 0)) as [->|]; [|apply S1]. rewrite S1. congruence.
Qed.
Lemma sigma_keep : forall w, keep (fst w) = true -> sigma w = w.
Proof.
  intros w K. unfold keep in K. apply andb_true_iff in K. destruct K as [K1 K2]. apply negb_true_iff, Nat.eqb_neq in K1, K2. unfold sigma, sr.
  destruct (wire_dec w (nid b, 1)) as [->|]; [exfalso; apply K2; reflexivity|]. destruct (wire_dec w (nid b, 0)) as [->|]; [exfalso; apply K2; reflexivity|].
  destruct (wire_dec w (nid r, 0)) as [->|]; [exfalso; apply K1; reflexivity|]. reflexivity.
Qed.
Lemma keep_neq : forall n, keep n = true <-> n <> nid r /\ n <> nid b.
Proof. intro n. unfold keep. rewrite andb_true_iff, !negb_true_iff, !Nat.eqb_neq. tauto. Qed.
Lemma sr_a2 : keep (fst (sr a2)) = true /\ rank O g (fst (sr a2)) <= rank O g (fst a2) /\ produced g (sr a2).
Proof.
  pose proof ranks as R. unfold sr. destruct (wire_dec a2 (nid r, 0)) as [E|E].
  - split; [apply keep_neq; split; intro K; rewrite K in R; lia|]. split; [lia|apply prod_a].
  - split; [|split; [lia|apply prod_a2]]. destruct a2_or as [K|K]; [congruence|]. apply keep_neq. split; intro K'; rewrite K' in *; lia.
Qed.
Lemma sigma_rank : forall w, produced g w -> produced g (sigma w) /\ keep (fst (sigma w)) = true /\ rank O g (fst (sigma w)) <= rank O g (fst w).
Proof.
  intros w P. pose proof ranks as R. pose proof sr_a2 as (S1 & S2 & S3).
  destruct (keep (fst w)) eqn:K; [rewrite sigma_keep by assumption; auto|].
  unfold keep in K. apply andb_false_iff in K.
  destruct P as (m & Hm & Em & Lm). destruct w as [n p]. simpl in *.
  destruct K as [K|K]; apply negb_false_iff, Nat.eqb_eq in K; subst n.
  - assert (m = r) by (apply (node_unique O g); auto using Nd). subst m. rewrite Kr in Lm. simpl in Lm. assert (p = 0) by lia. subst p.
    unfold sigma, sr. destruct (wire_dec (nid r, 0) (nid b, 1)) as [X|_]; [exfalso; apply r_neq_b; congruence|].
    destruct (wire_dec (nid r, 0) (nid b, 0)) as [X|_]; [exfalso; apply r_neq_b; congruence|].
    destruct (wire_dec (nid r, 0) (nid r, 0)) as [_|X]; [|congruence]. split; [apply prod_a|]. split; [|simpl; lia]. apply keep_neq. split; intro Q; rewrite Q in R; lia.
  - assert (m = b) by (apply (node_unique O g); auto using Nd). subst m. rewrite Kb in Lm. simpl in Lm. unfold sigma.
    destruct (wire_dec (nid b, p) (nid b, 1)) as [X|X].
    + split; [apply prod_v|]. split; [|simpl; lia]. apply keep_neq. split; intro Q; rewrite Q in R; lia.
    + destruct (wire_dec (nid b, p) (nid b, 0)) as [_|X']; [split; [assumption|]; split; [assumption|simpl; lia]|]. exfalso. assert (p = 0 \/ p = 1) by lia. destruct H; subst p; congruence.
Qed.

(** What the code produces. *)
Lemma elide_result : elide O g (nid r, nid b) = Some result.
Proof.
  unfold elide, single_linked_output. rewrite (In_find_node O g r Nd Hr), Ir. cbn [nth_error].
  rewrite fold_connect by apply Nd. set (g1 := redirect O (nid b, 1) v g).
  pose proof (v_not 0) as [Vb0 Vr0]. pose proof (v_not 1) as [Vb1 Vr1].
  assert (N1 : NoDup (map nid g1)) by (unfold g1; rewrite redirect_ids; apply Nd).
  set (b1 := with_ins O b (map (sub (nid b, 1) v) (ins b))).
  assert (Hb1 : In b1 g1) by (apply In_redirect; exists b; auto).
  assert (Ib1 : ins b1 = [a2; ixb]).
  { unfold b1. simpl. rewrite Ib. simpl. unfold sub. destruct (wire_dec a2 (nid b, 1)) as [X|_]; [exfalso; eapply a2_not; exact X|].
    destruct (wire_dec ixb (nid b, 1)) as [X|_]; [exfalso; eapply ixb_not; exact X|]. reflexivity. }
  assert (U1 : uses g1 (nid b, 0) = 1).
  { unfold g1. rewrite uses_redirect by congruence. destruct (wire_dec (nid b, 0) (nid b, 1)); [congruence|]. destruct (wire_dec (nid b, 0) v); [congruence|]. apply uses_b. }
  change (nid b) with (nid b1) at 1. rewrite (elide_node_spec O g1 b1 N1 Hb1 U1 a2 [ixb] Ib1). change (nid b1) with (nid b).
  set (g2 := remove_node O (nid b) (redirect O (nid b, 0) a2 g1)).
  assert (N2 : NoDup (map nid g2)) by (unfold g2; apply remove_ids; rewrite redirect_ids; assumption).
  set (r2 := with_ins O r (map (sub (nid b, 0) a2) (map (sub (nid b, 1) v) (ins r)))).
  assert (Hr2 : In r2 g2).
  { apply In_remove. split; [|apply r_neq_b]. apply In_redirect. exists (with_ins O r (map (sub (nid b, 1) v) (ins r))). split; [|reflexivity]. apply In_redirect. exists r. auto. }
  assert (Ir2 : ins r2 = [a; ixr; v]).
  { unfold r2. simpl. rewrite Ir. simpl.
    pose proof (a_not 0) as [Ab0 _]. pose proof (a_not 1) as [Ab1 _]. pose proof (ixr_not 0) as [Y0 _]. pose proof (ixr_not 1) as [Y1 _].
    rewrite (sub_id (nid b, 1) v a), (sub_id (nid b, 1) v ixr), (sub_id (nid b, 1) v v), !sub_id by assumption. reflexivity. }
  assert (Ur : uses g1 (nid r, 0) = 1).
  { unfold g1. rewrite uses_redirect by congruence. pose proof r_neq_b. destruct (wire_dec (nid r, 0) (nid b, 1)); [congruence|]. destruct (wire_dec (nid r, 0) v); [congruence|]. apply uses_r. }
  assert (U2 : uses g2 (nid r, 0) = 1).
  { assert (Hb' : In (with_ins O b1 (map (sub (nid b, 0) a2) (ins b1))) (redirect O (nid b, 0) a2 g1)) by (apply In_redirect; exists b1; auto).
    assert (N1' : NoDup (map nid (redirect O (nid b, 0) a2 g1))) by (rewrite redirect_ids; assumption).
    pose proof (uses_remove O (nid b) _ _ (nid r, 0) N1' Hb' eq_refl) as X. fold g2 in X. rewrite Ib1 in X. cbn [with_ins ins map] in X.
    assert (A2 : sub (nid b, 0) a2 a2 = a2) by (unfold sub; destruct (wire_dec a2 (nid b, 0)); reflexivity). rewrite A2 in X.
    assert (IX : sub (nid b, 0) a2 ixb = ixb) by (unfold sub; destruct (wire_dec ixb (nid b, 0)) as [Y|_]; [exfalso; eapply ixb_not; exact Y|reflexivity]). rewrite IX in X.
    rewrite uses_redirect in X by (intro Y; symmetry in Y; revert Y; apply a2_not). pose proof r_neq_b.
    destruct (wire_dec (nid r, 0) (nid b, 0)); [congruence|].
    assert (Z : count_occ wire_dec [ixb] (nid r, 0) = 0).
    { simpl. destruct (wire_dec ixb (nid r, 0)) as [Y|_]; [|reflexivity]. exfalso. destruct Tb as (_ & B & _). destruct Tr as (A & _ & C & _). rewrite Y in B. congruence. }
    cbn [count_occ] in X, Z. destruct (wire_dec (nid r, 0) a2) as [<-|D].
    - destruct (wire_dec (nid r, 0) (nid r, 0)); [|congruence]. lia.
    - destruct (wire_dec a2 (nid r, 0)); [congruence|]. lia. }
  change (nid r) with (nid r2). rewrite (elide_node_spec O g2 r2 N2 Hr2 U2 a [ixr; v] Ir2). change (nid r2) with (nid r). f_equal.
  (* the same nodes *)
  assert (RR : forall (f : wire -> wire) n (l : graph), filter (fun m : node => negb (Nat.eqb (nid m) n)) (map (fun m => with_ins O m (map f (ins m))) l) =
     map (fun m => with_ins O m (map f (ins m))) (filter (fun m : node => negb (Nat.eqb (nid m) n)) l)).
  { intros f n l. induction l as [|x l IH]; [reflexivity|]. simpl. destruct (negb (Nat.eqb (nid x) n)); simpl; rewrite IH; reflexivity. }
  assert (FF : forall n k (l : graph), filter (fun m : node => negb (Nat.eqb (nid m) n)) (filter (fun m : node => negb (Nat.eqb (nid m) k)) l) =
     filter (fun m => negb (Nat.eqb (nid m) n) && negb (Nat.eqb (nid m) k)) l).
  { intros n k l. induction l as [|x l IH]; [reflexivity|]. simpl. destruct (negb (Nat.eqb (nid x) k)) eqn:E; simpl; [|rewrite andb_false_r; assumption]. rewrite andb_true_r. destruct (negb (Nat.eqb (nid x) n)); rewrite IH; reflexivity. }
  unfold g2, g1, redirect, remove_node, result, keep.
  rewrite !RR, FF, !map_map. apply map_ext. intro m. unfold with_ins. cbn [nid knd ins]. f_equal. rewrite !map_map. apply map_ext. intro x.
  pose proof r_neq_b. pose proof (a2_not 1). unfold sigma. destruct (wire_dec x (nid b, 1)) as [E|E].
  { subst x. replace (sub (nid b, 1) v (nid b, 1)) with v by (unfold sub; destruct (wire_dec (nid b, 1) (nid b, 1)); congruence). rewrite !(sub_id _ _ v) by assumption. reflexivity. }
  rewrite (sub_id (nid b, 1) v x) by assumption. destruct (wire_dec x (nid b, 0)) as [E'|E'].
  { subst x. replace (sub (nid b, 0) a2 (nid b, 0)) with a2 by (unfold sub; destruct (wire_dec (nid b, 0) (nid b, 0)); congruence). reflexivity. }
  rewrite (sub_id (nid b, 0) a2 x) by assumption. reflexivity.
Qed.

Lemma In_result : forall m, In m result <-> exists m0, In m0 g /\ keep (nid m0) = true /\ m = with_ins O m0 (map sigma (ins m0)).
Proof. intro m. unfold result. rewrite in_map_iff. split; [intros (x & <- & H); apply filter_In in H; exists x; tauto|intros (x & H1 & H2 & ->); exists x; split; [reflexivity|apply filter_In; auto]]. Qed.
Lemma produced_result : forall w, produced result w <-> produced g w /\ keep (fst w) = true.
Proof.
  intro w. split.
  - intros (m & Hm & E & L). apply In_result in Hm. destruct Hm as (x & Hx & K & ->). simpl in *. split; [exists x; auto|rewrite <- E; assumption].
  - intros [(m & Hm & E & L) K]. exists (with_ins O m (map sigma (ins m))). split; [|auto]. apply In_result. exists m. rewrite E. auto.
Qed.
Lemma ids_result : NoDup (map nid result).
Proof.
  unfold result. rewrite map_map. simpl. generalize Nd. generalize g as l. induction l as [|m l IH]; intro H; [constructor|]. simpl in H. inversion H as [|? ? N1 N2]; subst. simpl.
  destruct (keep (nid m)); [|auto]. simpl. constructor; [|auto]. intro K. apply N1. apply in_map_iff in K. destruct K as (x & E & Hx). apply filter_In in Hx. rewrite <- E. apply in_map. apply Hx.
Qed.
Lemma rank_result : forall x y, keep x = true -> keep y = true -> In x (map nid g) -> rank O g x < rank O g y -> rank O result x < rank O result y.
Proof. intros x y Kx Ky Hx R. unfold result. rewrite !rank_map by reflexivity. apply rank_filter; assumption. Qed.
Lemma topological_result : topological result.
Proof.
  apply topological_ranked. split; [apply ids_result|]. intros m w Hm Hw. apply In_result in Hm. destruct Hm as (x & Hx & K & ->). simpl in *. apply in_map_iff in Hw. destruct Hw as (w0 & <- & Hw).
  destruct (Rk x w0 Hx Hw) as [P0 R0]. destruct (sigma_rank w0 P0) as (P1 & K1 & R1). split; [apply produced_result; auto|].
  apply rank_result; auto; [|lia]. destruct P1 as (y & Hy & Ey & _). rewrite <- Ey. apply in_map. assumption.
Qed.
Lemma uses_result : forall x, produced result x -> is_array (ty x) = true -> uses result x = 1.
Proof.
  intros x P A. apply produced_result in P. destruct P as [P K]. apply keep_neq in K. destruct K as [K1 K2].
  pose proof elide_result as E. unfold elide, single_linked_output in E. rewrite (In_find_node O g r Nd Hr), Ir in E. cbn [nth_error] in E.
  rewrite fold_connect in E by apply Nd. set (g1 := redirect O (nid b, 1) v g) in *.
  pose proof (v_not 0) as [Vb0 Vr0]. pose proof (v_not 1) as [Vb1 Vr1]. pose proof r_neq_b as Nrb. pose proof a_neq_v as Nav. pose proof a2_neq_v as Na2v. pose proof a_neq_a2 as Naa2.
  pose proof (a_not 0) as [Ab0 Ar0]. pose proof (a_not 1) as [Ab1 _]. pose proof (a2_not 0) as A20. pose proof (a2_not 1) as A21. pose proof (ixb_not 0) as X0. pose proof (ixb_not 1) as X1.
  pose proof (ixr_not 0) as [Y0 Y0']. pose proof (ixr_not 1) as [Y1 _].
  assert (N1 : NoDup (map nid g1)) by (unfold g1; rewrite redirect_ids; apply Nd).
  set (b1 := with_ins O b (map (sub (nid b, 1) v) (ins b))) in *.
  assert (Hb1 : In b1 g1) by (apply In_redirect; exists b; auto).
  assert (Ib1 : ins b1 = [a2; ixb]).
  { unfold b1. simpl. rewrite Ib. simpl. unfold sub. destruct (wire_dec a2 (nid b, 1)); [congruence|]. destruct (wire_dec ixb (nid b, 1)); [congruence|]. reflexivity. }
  assert (U1 : forall y, y <> (nid b, 1) -> uses g1 y = if wire_dec y v then uses g v + uses g (nid b, 1) else uses g y).
  { intros y Hy. unfold g1. rewrite uses_redirect by congruence. destruct (wire_dec y (nid b, 1)); [congruence|reflexivity]. }
  assert (Ub : uses g1 (nid b, 0) = 1) by (rewrite U1 by congruence; destruct (wire_dec (nid b, 0) v); [congruence|apply uses_b]).
  change (nid b) with (nid b1) in E at 1. rewrite (elide_node_spec O g1 b1 N1 Hb1 Ub a2 [ixb] Ib1) in E. change (nid b1) with (nid b) in E.
  set (g2 := remove_node O (nid b) (redirect O (nid b, 0) a2 g1)) in *.
  assert (N2 : NoDup (map nid g2)) by (unfold g2; apply remove_ids; rewrite redirect_ids; assumption).
  assert (U2 : forall y, y <> (nid b, 0) -> y <> (nid b, 1) -> is_array (ty y) = true -> uses g2 y = uses g1 y).
  { intros y Hy Hy1 Ay.
    assert (Hb' : In (with_ins O b1 (map (sub (nid b, 0) a2) (ins b1))) (redirect O (nid b, 0) a2 g1)) by (apply In_redirect; exists b1; auto).
    assert (N1' : NoDup (map nid (redirect O (nid b, 0) a2 g1))) by (rewrite redirect_ids; assumption).
    pose proof (uses_remove O (nid b) _ _ y N1' Hb' eq_refl) as X. fold g2 in X. rewrite Ib1 in X. cbn [with_ins ins map] in X.
    assert (A2 : sub (nid b, 0) a2 a2 = a2) by (unfold sub; destruct (wire_dec a2 (nid b, 0)); reflexivity). rewrite A2 in X.
    assert (IX : sub (nid b, 0) a2 ixb = ixb) by (unfold sub; destruct (wire_dec ixb (nid b, 0)); congruence). rewrite IX in X.
    rewrite uses_redirect in X by congruence.
    destruct (wire_dec y (nid b, 0)); [congruence|].
    assert (Z : count_occ wire_dec [ixb] y = 0).
    { simpl. destruct (wire_dec ixb y) as [Y|_]; [|reflexivity]. exfalso. destruct Tb as (_ & B & _). rewrite Y in B. congruence. }
    cbn [count_occ] in X, Z. destruct (wire_dec y a2) as [->|D].
    - destruct (wire_dec a2 a2); [|congruence]. lia.
    - destruct (wire_dec a2 y); [congruence|]. lia. }
  set (r2 := with_ins O r (map (sub (nid b, 0) a2) (map (sub (nid b, 1) v) (ins r)))) in *.
  assert (Hr2 : In r2 g2).
  { apply In_remove. split; [|apply r_neq_b]. apply In_redirect. exists (with_ins O r (map (sub (nid b, 1) v) (ins r))). split; [|reflexivity]. apply In_redirect. exists r. auto. }
  assert (Ir2 : ins r2 = [a; ixr; v]).
  { unfold r2. simpl. rewrite Ir. simpl.
    rewrite (sub_id (nid b, 1) v a), (sub_id (nid b, 1) v ixr), (sub_id (nid b, 1) v v), !sub_id by assumption. reflexivity. }
  assert (Ar : is_array (ty (nid r, 0)) = true) by (destruct Tr as (Q & _ & -> & _); exact Q).
  assert (Ur : uses g2 (nid r, 0) = 1).
  { rewrite U2 by congruence. rewrite U1 by congruence. destruct (wire_dec (nid r, 0) v); [congruence|]. apply uses_r. }
  change (nid r) with (nid r2) in E. rewrite (elide_node_spec O g2 r2 N2 Hr2 Ur a [ixr; v] Ir2) in E. change (nid r2) with (nid r) in E.
  injection E as E. 
  assert (Hr3 : In (with_ins O r2 (map (sub (nid r, 0) a) (ins r2))) (redirect O (nid r, 0) a g2)) by (apply In_redirect; exists r2; auto).
  assert (N2' : NoDup (map nid (redirect O (nid r, 0) a g2))) by (rewrite redirect_ids; assumption).
  pose proof (uses_remove O (nid r) _ _ x N2' Hr3 eq_refl) as X. rewrite E, Ir2 in X. cbn [with_ins ins map] in X.
  assert (B1 : sub (nid r, 0) a a = a) by (unfold sub; destruct (wire_dec a (nid r, 0)); reflexivity). rewrite B1 in X.
  assert (B2 : sub (nid r, 0) a ixr = ixr) by (unfold sub; destruct (wire_dec ixr (nid r, 0)); congruence). rewrite B2 in X.
  assert (B3 : sub (nid r, 0) a v = v) by (unfold sub; destruct (wire_dec v (nid r, 0)); congruence). rewrite B3 in X.
  rewrite uses_redirect in X by congruence.
  destruct (wire_dec x (nid r, 0)) as [->|_]; [exfalso; apply K1; reflexivity|].
  assert (Xb0 : x <> (nid b, 0)) by (intros ->; apply K2; reflexivity). assert (Xb1 : x <> (nid b, 1)) by (intros ->; apply K2; reflexivity).
  assert (Xi : ixr <> x) by (intros <-; destruct Tr as (_ & Q & _); congruence).
  pose proof (Sh x P A) as Ux.
  rewrite Ur in X. simpl in X. destruct (wire_dec ixr x); [congruence|].
  destruct (wire_dec x a) as [->|D].
  - rewrite U2 in X by assumption. rewrite U1 in X by assumption. destruct (wire_dec a a); [|congruence]. destruct (wire_dec v a); [congruence|]. destruct (wire_dec a v); [congruence|]. lia.
  - rewrite U2 in X by assumption. rewrite U1 in X by assumption. destruct (wire_dec a x); [congruence|].
    destruct (wire_dec x v) as [->|Dv].
    + destruct (wire_dec v v); [|congruence].
      assert (uses g (nid b, 1) = 1); [|lia]. apply Sh; [apply prod_b; lia|]. destruct Tr as (_ & _ & _ & Q1). destruct Tb as (_ & _ & _ & Q2). rewrite Q2, Ta2, <- Q1. assumption.
    + destruct (wire_dec v x); [congruence|]. lia.
Qed.
Lemma wfg_result : wfg result.
Proof.
  split; [apply topological_result|]. split; [apply uses_result|].
  intros m Hm. apply In_result in Hm. destruct Hm as (x & Hx & K & ->). cbn [with_ins knd ins nid]. destruct W as [_ [_ H]]. specialize (H x Hx).
  destruct (knd x).
  - destruct H as (p & q & -> & A1 & A2 & A3 & A4). exists (sigma p), (sigma q). rewrite !sigma_ty. auto.
  - destruct H as (p & q & s & -> & A1 & A2 & A3 & A4). exists (sigma p), (sigma q), (sigma s). rewrite !sigma_ty. auto.
  - destruct H as [-> H]. auto.
  - exact I.
Qed.
Lemma chain_result : forall ops w, chain g w ops -> (forall op, In op ops -> keep (onode op) = true) -> chain result (sigma w) ops.
Proof.
  induction ops as [|op ops IH]; intros w C K; [exact I|]. destruct C as [L C]. split.
  - destruct L as (m & ix & rest & Hm & En & Ek & Ei & c & Hc & Ec & Kc).
    assert (Kc' : keep (nid c) = true).
    { apply keep_neq. split; intro X; [assert (c = r) by (apply (node_unique O g); auto using Nd)|assert (c = b) by (apply (node_unique O g); auto using Nd)]; subst c; congruence. }
    exists (with_ins O m (map sigma (ins m))), (sigma ix), (map sigma rest). cbn [with_ins nid knd ins]. split; [apply In_result; exists m; rewrite En; split; [assumption|]; split; [apply K; left; reflexivity|reflexivity]|].
    split; [assumption|]. split; [assumption|]. split; [rewrite Ei; reflexivity|].
    rewrite sigma_keep by (rewrite <- Ec; assumption).
    exists (with_ins O c (map sigma (ins c))). split; [apply In_result; exists c; auto|auto].
  - assert (E : sigma (onode op, 0) = (onode op, 0)) by (apply sigma_keep; apply K; left; reflexivity). rewrite <- E. apply IH; [assumption|]. intros x Hx. apply K. right. assumption.
Qed.

(** ** Meaning *)
Section Meaning.
Variables (X : Type) (sem : O -> list (val X) -> option (list (val X))).
Variables (i nb0 : nat) (l2 l3 : list aop) (w0 : wire).
Hypothesis C0 : chain g w0 ((nb0, i, ABorrow) :: l2 ++ (nid r, i, AReturn) :: l3 ++ [(nid b, i, ABorrow)]).
Hypothesis I2 : ~ In i (map oidx l2).
Hypothesis I3 : ~ In i (map oidx l3).
Notation sol := (sol O X sem).
Notation env := (wire -> option (val X)).
Notation opr := (nid r, i, AReturn).
Notation opb := (nid b, i, ABorrow).
Notation opb0 := (nb0, i, ABorrow).

Lemma C_split : link g w0 opb0 /\ chain g (nb0, 0) l2 /\ link g (cend (nb0, 0) l2) opr /\ chain g (nid r, 0) l3 /\ link g (cend (nid r, 0) l3) opb.
Proof. destruct C0 as [A B]. apply chain_app in B. destruct B as [B [D E]]. apply chain_app in E. destruct E as [E [F _]]. auto. Qed.
Lemma link_r : link g a opr.
Proof.
  destruct C_split as (_ & _ & L & _). destruct L as (m & ix & rest & Hm & En & Ek & Ei & Q). assert (m = r) by (apply (node_unique O g); auto using Nd). subst m.
  exists r, ix, rest. rewrite Ir in Ei. injection Ei as E1' E2' E3'. subst. rewrite Ir. auto 10.
Qed.
Lemma a_is : cend (nb0, 0) l2 = a.
Proof.
  destruct C_split as (_ & _ & L & _). destruct L as (m & ix & rest & Hm & En & Ek & Ei & Q). assert (m = r) by (apply (node_unique O g); auto using Nd). subst m.
  rewrite Ir in Ei. injection Ei as E1' _ _. auto.
Qed.
Lemma a2_is : cend (nid r, 0) l3 = a2.
Proof.
  destruct C_split as (_ & _ & _ & _ & L). destruct L as (m & ix & rest & Hm & En & Ek & Ei & Q). assert (m = b) by (apply (node_unique O g); auto using Nd). subst m.
  rewrite Ib in Ei. injection Ei as E1' _ _. auto.
Qed.
Lemma link_b : link g a2 opb.
Proof. rewrite <- a2_is. apply C_split. Qed.
Lemma rank3 : forall op, In op l3 -> rank O g (nid r) < rank O g (onode op) /\ rank O g (onode op) < rank O g (nid b).
Proof.
  intros op H. destruct C_split as (_ & _ & _ & C3 & L3). split; [exact (chain_rank g l3 (nid r, 0) W C3 op H)|].
  apply in_split in H. destruct H as (x & y & ->). apply chain_app in C3. destruct C3 as [_ [_ Cy]].
  pose proof (chain_cend_rank g y _ W Cy) as Q. pose proof (link_typed g _ _ W L3) as (_ & _ & _ & _ & R). rewrite cend_app in R. simpl in R, Q. unfold onode in *. simpl in *. lia.
Qed.
Lemma keep3 : forall op, In op l3 -> keep (onode op) = true.
Proof. intros op H. destruct (rank3 op H) as [A B]. apply keep_neq. split; intro K; rewrite K in *; lia. Qed.
Lemma rank2 : forall op, In op (opb0 :: l2) -> rank O g (onode op) < rank O g (nid r).
Proof.
  intros op H. destruct C_split as (L0 & C2 & L2 & _).
  assert (C' : chain g w0 (opb0 :: l2)) by (split; assumption). assert (L' : link g (cend w0 (opb0 :: l2)) opr) by exact L2.
  apply in_split in H. destruct H as (x & y & E). rewrite E in C', L'. apply chain_app in C'. destruct C' as [_ [_ Cy]].
  pose proof (chain_cend_rank g y _ W Cy) as Q. pose proof (link_typed g _ _ W L') as (_ & _ & _ & _ & R). rewrite cend_app in R. simpl in R, Q. unfold onode in *. simpl in *. lia.
Qed.
Lemma keep2 : forall op, In op (opb0 :: l2) -> keep (onode op) = true.
Proof. intros op H. pose proof (rank2 op H) as A. pose proof ranks as R. apply keep_neq. split; intro K; rewrite K in *; lia. Qed.

(** The array wires between the pair, without and with that of the return. *)
Definition Ml : list wire := map out l3.
Definition Mr : list wire := (nid r, 0) :: Ml.
Lemma Ml_rank : forall w, In w Ml -> rank O g (nid r) < rank O g (fst w) /\ keep (fst w) = true /\ snd w = 0.
Proof. intros w H. apply in_map_iff in H. destruct H as (op & <- & H). split; [apply rank3, H|]. split; [apply keep3, H|reflexivity]. Qed.
Lemma a2_M : In a2 Mr.
Proof. rewrite <- a2_is. apply cend_out. Qed.
Lemma notM_rank : forall w, rank O g (fst w) < rank O g (nid r) -> ~ In w Ml /\ ~ In w Mr.
Proof.
  intros w R. assert (A : ~ In w Ml) by (intro K; apply Ml_rank in K; lia). split; [assumption|]. intros [<-|K]; [simpl in R; lia|auto].
Qed.
Lemma b_notM : forall p, ~ In (nid b, p) Ml /\ ~ In (nid b, p) Mr.
Proof.
  intro p. assert (A : ~ In (nid b, p) Ml). { intro K. apply Ml_rank in K. destruct K as (_ & K & _). apply keep_neq in K. destruct K as [_ K]. apply K. reflexivity. }
  split; [assumption|]. intros [K|K]; [|auto]. injection K as K _. apply r_neq_b, K.
Qed.
(** Who uses them. *)
Lemma M_consumer : forall x, In x Mr -> exists op, In op (l3 ++ [opb]) /\ link g x op.
Proof. intros x H. destruct C_split as (_ & _ & _ & C3 & L3). apply (chain_consumer O g l3 opb (nid r, 0)); [apply chain_app; split; [assumption|split; [assumption|exact I]]|exact H]. Qed.
Lemma M_user : forall x m, In x Mr -> In m g -> In x (ins m) -> (exists op, In op (l3 ++ [opb]) /\ onode op = nid m) /\ exists rest, ins m = x :: rest /\ ~ In x rest.
Proof.
  intros x m Hx Hm Hi. destruct (M_consumer x Hx) as (op & Ho & L). pose proof (link_typed g x op W L) as (_ & _ & U & _). destruct L as (k & ix & rest & Hk & En & _ & Ei & _).
  destruct (sole_user O g x k (ix :: rest) m Nd U Hk Ei Hm Hi) as [-> NI]. split; [exists op; auto|]. exists (ix :: rest). auto.
Qed.
Lemma other_reads : forall m, In m g -> keep (nid m) = true -> ~ In (nid m) (map onode l3) -> forall x, In x (ins m) -> ~ In x Mr.
Proof.
  intros m Hm K N3 x Hx H. destruct (M_user x m H Hm Hx) as [(op & Ho & E) _]. apply in_app_or in Ho. destruct Ho as [Ho|[<-|[]]].
  - apply N3. rewrite <- E. apply in_map, Ho.
  - apply keep_neq in K. destruct K as [_ K]. apply K. symmetry. exact E.
Qed.
(** An operation between the pair. *)
Lemma mid_op : forall op, In op l3 -> exists m w ix rest, In m g /\ nid m = onode op /\ knd m = akind (oact op) /\ ins m = w :: ix :: rest /\ In w Mr /\ ~ In ix Mr /\ (forall x, In x rest -> ~ In x Mr) /\ link g w op.
Proof.
  intros op H. destruct C_split as (_ & _ & _ & C3 & _). destruct (chain_wire O g l3 (nid r, 0) C3 op H) as (w & Hw & L). pose proof L as L'. destruct L as (m & ix & rest & Hm & En & Ek & Ei & _).
  exists m, w, ix, rest. do 4 (split; [assumption|]). split; [exact Hw|].
  assert (Q : forall x, In x (ix :: rest) -> ~ In x Mr).
  { intros x Hx HM. destruct (M_user x m HM Hm) as [_ (rest' & E & NI)]; [rewrite Ei; right; assumption|]. rewrite Ei in E. injection E as E1' E2'. subst. contradiction. }
  split; [apply Q; left; reflexivity|]. split; [intros x Hx; apply Q; right; assumption|assumption].
Qed.
Lemma prod_in : forall m w, In m g -> In w (ins m) -> produced g w.
Proof. intros m w Hm Hw. apply (Rk m w Hm Hw). Qed.

Definition upd (x : option (val X)) (o : option (val X)) : option (val X) := match o with Some (VA c) => Some (VA (set_cell i x c)) | o => o end.

(** Two valuations of the two regions. *)
Definition related (v0 : val X) (e e' : env) : Prop :=
  (forall w, produced g w -> In w Mr -> exists c, e w = Some (VA c) /\ e' (sigma w) = Some (VA (set_cell i None c)) /\ nth_error c i = Some (Some v0)) /\ (forall w, produced g w -> ~ In w Mr -> e' (sigma w) = e w).
Lemma related_reads : forall v0 e e' m, related v0 e e' -> In m g -> keep (nid m) = true -> ~ In (nid m) (map onode l3) -> read e' (map sigma (ins m)) = read e (ins m).
Proof.
  intros v0 e e' m [_ R] Hm K N3. rewrite read_map. apply read_ext. intros w Hw. apply R; [apply (prod_in m w Hm Hw)|]. apply (other_reads m Hm K N3 w Hw).
Qed.
Lemma mid_eval : forall v0 e e' op m w ix rest, related v0 e e' -> In op l3 -> In m g -> nid m = onode op -> knd m = akind (oact op) -> ins m = w :: ix :: rest -> In w Mr -> ~ In ix Mr ->
  (forall x, In x rest -> ~ In x Mr) -> e ix = Some (VI (oidx op)) ->
  (forall vs outs, read e (ins m) = Some vs -> eval_node sem (knd m) vs = Some outs ->
     exists vs' c tl, read e' (map sigma (ins m)) = Some vs' /\ outs = VA c :: tl /\ eval_node sem (knd m) vs' = Some (VA (set_cell i None c) :: tl)) /\  (forall vs' outs', read e' (map sigma (ins m)) = Some vs' -> eval_node sem (knd m) vs' = Some outs' ->
     exists vs c tl, read e (ins m) = Some vs /\ eval_node sem (knd m) vs = Some (VA c :: tl) /\ outs' = VA (set_cell i None c) :: tl /\ nth_error c i = Some (Some v0)).
Proof.
  intros v0 e e' op m w ix rest [RM RN] Ho Hm En Ek Ei Hw Hix Hrest Ex.
  assert (Hp : forall x, In x (ins m) -> produced g x) by (intros x Hx; apply (prod_in m x Hm Hx)).
  destruct (RM w) as (c & Ec & Ec' & Nc); [apply Hp; rewrite Ei; left; reflexivity|assumption|].
  assert (Ex' : e' (sigma ix) = Some (VI (oidx op))) by (rewrite RN; [assumption|apply Hp; rewrite Ei; simpl; auto|assumption]).
  assert (Rr : read e' (map sigma rest) = read e rest).
  { rewrite read_map. apply read_ext. intros x Hx. apply RN; [apply Hp; rewrite Ei; simpl; auto|auto]. }
  assert (D : i <> oidx op) by (intro K; apply I3; rewrite K; apply in_map, Ho).
  rewrite Ei. cbn [map read]. rewrite Ec, Ec', Ex, Ex', Rr. destruct (read e rest) as [vr|]; [|split; intros; discriminate]. rewrite Ek.
  destruct (oact op); cbn [akind].
  - split.
    + intros vs outs H Ev. injection H as <-. destruct vr; [|discriminate]. cbn [eval_node] in *. destruct (nth_error c (oidx op)) as [[v1|]|] eqn:N1; try discriminate. injection Ev as <-.
      eexists _, _, _. split; [reflexivity|]. split; [reflexivity|]. cbn [eval_node]. rewrite nth_set_other, ?N1 by assumption. rewrite (set_set_other X i (oidx op)) by assumption. reflexivity.
    + intros vs' outs' H Ev. injection H as <-. destruct vr; [|discriminate]. cbn [eval_node] in *. rewrite nth_set_other in Ev by assumption. destruct (nth_error c (oidx op)) as [[v1|]|] eqn:N1; try discriminate. injection Ev as <-.
      eexists _, _, _. split; [reflexivity|]. cbn [eval_node]. rewrite ?N1. split; [reflexivity|]. rewrite (set_set_other X i (oidx op)) by assumption. split; [reflexivity|]. rewrite nth_set_other by congruence. assumption.
  - split.
    + intros vs outs H Ev. injection H as <-. destruct vr as [|vv [|]]; [discriminate| |discriminate]. cbn [eval_node] in *. destruct (nth_error c (oidx op)) as [[v1|]|] eqn:N1; try discriminate. injection Ev as <-.
      eexists _, _, _. split; [reflexivity|]. split; [reflexivity|]. cbn [eval_node]. rewrite nth_set_other, ?N1 by assumption. rewrite (set_set_other X i (oidx op)) by assumption. reflexivity.
    + intros vs' outs' H Ev. injection H as <-. destruct vr as [|vv [|]]; [discriminate| |discriminate]. cbn [eval_node] in *. rewrite nth_set_other in Ev by assumption. destruct (nth_error c (oidx op)) as [[v1|]|] eqn:N1; try discriminate. injection Ev as <-.
      eexists _, _, _. split; [reflexivity|]. cbn [eval_node]. rewrite ?N1. split; [reflexivity|]. rewrite (set_set_other X i (oidx op)) by assumption. split; [reflexivity|]. rewrite nth_set_other by congruence. assumption.
Qed.

Lemma prod_cases : forall w, produced g w -> keep (fst w) = true \/ w = (nid r, 0) \/ w = (nid b, 0) \/ w = (nid b, 1).
Proof.
  intros [n p] (m & Hm & Em & Lm). simpl in *. destruct (keep n) eqn:K; [auto|]. right. unfold keep in K. apply andb_false_iff in K.
  destruct K as [K|K]; apply negb_false_iff, Nat.eqb_eq in K; subst n.
  - assert (m = r) by (apply (node_unique O g); auto using Nd). subst m. rewrite Kr in Lm. simpl in Lm. left. f_equal. lia.
  - assert (m = b) by (apply (node_unique O g); auto using Nd). subst m. rewrite Kb in Lm. simpl in Lm. right. destruct p as [|[|p]]; [auto|auto|lia].
Qed.
Lemma sigma_r : sigma (nid r, 0) = a.
Proof.
  unfold sigma, sr. pose proof r_neq_b. destruct (wire_dec (nid r, 0) (nid b, 1)); [congruence|]. destruct (wire_dec (nid r, 0) (nid b, 0)); [congruence|]. destruct (wire_dec (nid r, 0) (nid r, 0)); congruence.
Qed.
Lemma sigma_b0 : sigma (nid b, 0) = sigma a2.
Proof.
  pose proof (a2_not 0). pose proof (a2_not 1). unfold sigma. destruct (wire_dec (nid b, 0) (nid b, 1)); [congruence|]. destruct (wire_dec (nid b, 0) (nid b, 0)); [|congruence].
  destruct (wire_dec a2 (nid b, 1)); [congruence|]. destruct (wire_dec a2 (nid b, 0)); [congruence|]. reflexivity.
Qed.
Lemma sigma_b1 : sigma (nid b, 1) = v.
Proof. unfold sigma. destruct (wire_dec (nid b, 1) (nid b, 1)); congruence. Qed.
Lemma kept_av : keep (fst a) = true /\ keep (fst v) = true.
Proof. pose proof ranks as R. split; apply keep_neq; split; intro Q; rewrite Q in R; lia. Qed.
Lemma Mr_prod : forall w, In w Mr -> produced g w.
Proof. intros w H. destruct (M_consumer w H) as (op & _ & L). apply (link_typed g w op W L). Qed.
Lemma in_Ml_id : forall m p, In m g -> In (nid m, p) Ml <-> In (nid m) (map onode l3) /\ p = 0.
Proof.
  intros m p Hm. unfold Ml. rewrite !in_map_iff. split.
  - intros (op & E & H). unfold out in E. injection E as E <-. split; [exists op; auto|reflexivity].
  - intros [(op & E & H) ->]. exists op. unfold out. rewrite E. auto.
Qed.
Lemma mid_of : forall m, In m g -> In (nid m) (map onode l3) -> exists op w ix rest, In op l3 /\ nid m = onode op /\ knd m = akind (oact op) /\ ins m = w :: ix :: rest /\ In w Mr /\ ~ In ix Mr /\
  (forall x, In x rest -> ~ In x Mr) /\ link g w op.
Proof.
  intros m Hm H. apply in_map_iff in H. destruct H as (op & E & H). destruct (mid_op op H) as (m' & w & ix & rest & Hm' & En & Q). assert (m' = m) by (apply (node_unique O g); auto using Nd; congruence). subst m'.
  exists op, w, ix, rest. auto.
Qed.

Theorem forward : forall e, sol g e -> exists e' v0, related v0 e e' /\ sol result e'.
Proof.
  intros e Sg.
  destruct (hold_link X sem g e a opr W Sg link_r) as (ca & Ea & v0 & Na & Er & Ev). unfold oidx, onode in Na, Er, Ev; simpl in Na, Er, Ev. specialize (Ev r a ixr v Hr eq_refl Ir).
  destruct C_split as (_ & _ & _ & C3 & _).
  assert (Along : forall w, In w Mr -> exists c, e w = Some (VA c) /\ nth_error c i = Some (Some v0)).
  { apply (cell_along X sem i (Some (Some v0)) l3 g e (nid r, 0) W Sg C3 I3). eexists. split; [exact Er|]. eapply nth_set_same. exact Na. }
  destruct (hold_link X sem g e a2 opb W Sg link_b) as (c2 & Ea2 & vb & N2 & Eb0 & Eb1). unfold oidx, onode in N2, Eb0, Eb1; simpl in N2, Eb0, Eb1.
  assert (vb = v0) by (destruct (Along a2 a2_M) as (c & Q1 & Q2); congruence). subst vb.
  set (e' := fun w => if keep (fst w) then if in_dec wire_dec w Ml then upd None (e w) else e w else None).
  assert (EK : forall w, keep (fst w) = true -> ~ In w Ml -> e' w = e w) by (intros w K N; unfold e'; rewrite K; destruct (in_dec wire_dec w Ml); [contradiction|reflexivity]).
  assert (EM : forall w, In w Ml -> e' w = upd None (e w)) by (intros w N; unfold e'; destruct (Ml_rank w N) as (_ & -> & _); destruct (in_dec wire_dec w Ml); [reflexivity|contradiction]).
  pose proof kept_av as [Ka Kv]. pose proof ranks as R.
  assert (E'a : e' a = Some (VA ca)) by (rewrite EK; [assumption|assumption|apply notM_rank; lia]).
  assert (Rel : related v0 e e').
  { assert (P1 : forall w, produced g w -> In w Mr -> exists c, e w = Some (VA c) /\ e' (sigma w) = Some (VA (set_cell i None c)) /\ nth_error c i = Some (Some v0)).
    { intros w P H. destruct (Along w H) as (c & Ec & Nc). exists c. split; [assumption|]. split; [|assumption]. destruct H as [<-|H].
      - rewrite sigma_r, E'a. rewrite Er in Ec. injection Ec as <-. rewrite set_set_same. rewrite set_id by assumption. reflexivity.
      - rewrite sigma_keep by apply (Ml_rank w H). rewrite (EM w H), Ec. reflexivity. }
    split; [exact P1|].
    intros w P H. destruct (prod_cases w P) as [K|[->|[->| ->]]].
    - rewrite sigma_keep by assumption. apply EK; [assumption|]. intro Q. apply H. right. assumption.
    - exfalso. apply H. left. reflexivity.
    - rewrite sigma_b0. destruct (P1 a2 prod_a2 a2_M) as (c & Q1 & Q2 & _). rewrite Q2, Eb0. congruence.
    - rewrite sigma_b1. rewrite EK; [congruence|assumption|apply notM_rank; lia]. }
  exists e', v0. split; [exact Rel|]. split.
  - intros n Hn. apply In_result in Hn. destruct Hn as (m & Hm & K & ->). destruct Sg as [S0 S1] eqn:SE. destruct (S0 m Hm) as (vs & outs & Rd & Ev' & Po). unfold holds. cbn [with_ins nid knd ins].
    destruct (in_dec Nat.eq_dec (nid m) (map onode l3)) as [H3|H3].
    + destruct (mid_of m Hm H3) as (op & w & ix & rest & Ho & En & Ek & Ei & Hw & Hix & Hr' & L).
      assert (Ex : e ix = Some (VI (oidx op))) by (apply (link_ix X sem g e w op m w ix rest W Sg L Hm En Ei)).
      destruct (mid_eval v0 e e' op m w ix rest Rel Ho Hm En Ek Ei Hw Hix Hr' Ex) as [F _].
      destruct (F vs outs Rd Ev') as (vs' & c & tl & Rd' & -> & Ev2). exists vs', (VA (set_cell i None c) :: tl). split; [assumption|]. split; [assumption|].
      intros [|p].
      * rewrite EM by (apply in_Ml_id; auto). rewrite Po. reflexivity.
      * rewrite EK; [rewrite Po; reflexivity|assumption|]. intro Q. apply in_Ml_id in Q; [|assumption]. destruct Q. discriminate.
    + exists vs, outs. split; [rewrite (related_reads v0 e e' m Rel Hm K H3); assumption|]. split; [assumption|]. intro p. rewrite EK; [apply Po|assumption|]. intro Q. apply in_Ml_id in Q; [|assumption]. destruct Q. contradiction.
  - intros w Hw. unfold e'. destruct (keep (fst w)) eqn:K; [|reflexivity].
    assert (Ng : ~ In (fst w) (map nid g)). { intro Q. apply Hw. apply in_map_iff in Q. destruct Q as (m & E & Hm). rewrite <- E. apply in_map_iff. exists (with_ins O m (map sigma (ins m))). split; [reflexivity|]. apply In_result. exists m. rewrite E. auto. }
    destruct Sg as [S0 S1]. rewrite S1 by assumption. destruct (in_dec wire_dec w Ml); reflexivity.
Qed.

Theorem backward : forall e', sol result e' -> exists e v0, related v0 e e' /\ sol g e.
Proof.
  intros e' Sr. pose proof wfg_result as Wr. pose proof kept_av as [Ka Kv]. pose proof ranks as R.
  assert (Pv : exists v0, e' v = Some v0). { apply (sol_defined O X sem result e' v Sr). apply produced_result. split; [apply prod_v|assumption]. }
  destruct Pv as (v0 & Ev).
  (* the cell is empty along the way *)
  destruct C_split as (L0 & C2 & _ & C3 & _).
  assert (K0 : keep nb0 = true) by (apply (keep2 opb0); left; reflexivity).
  assert (Cr : chain result (nb0, 0) (l2 ++ l3)).
  { apply chain_app. split.
    - rewrite <- (sigma_keep (nb0, 0) K0). apply chain_result; [assumption|]. intros op H. apply keep2. right. assumption.
    - rewrite a_is, <- sigma_r. apply chain_result; [assumption|exact keep3]. }
  assert (Lr : link result (sigma w0) opb0).
  { assert (Q : chain result (sigma w0) [opb0]) by (apply chain_result; [split; [assumption|exact I]|intros op [<-|[]]; exact K0]). apply Q. }
  destruct (hold_link X sem result e' _ _ Wr Sr Lr) as (cb & _ & vb & Nb & Eb & _). unfold oidx, onode in Nb, Eb; simpl in Nb, Eb.
  assert (Along : forall w, In w ((nb0, 0) :: map out (l2 ++ l3)) -> exists c, e' w = Some (VA c) /\ nth_error c i = Some None).
  { apply (cell_along X sem i (Some None) (l2 ++ l3) result e' (nb0, 0) Wr Sr Cr). - rewrite map_app, in_app_iff. tauto. - eexists. split; [exact Eb|]. eapply nth_set_same. exact Nb. }
  assert (Aa : exists c, e' a = Some (VA c) /\ nth_error c i = Some None).
  { apply Along. rewrite <- a_is. destruct (cend_out l2 (nb0, 0)) as [H|H]; [left; assumption|right]. rewrite map_app. apply in_or_app. left. assumption. }
  assert (Am : forall w, In w Ml -> exists c, e' w = Some (VA c) /\ nth_error c i = Some None).
  { intros w H. apply Along. right. rewrite map_app. apply in_or_app. right. assumption. }
  set (e := fun w => if wire_dec w (nid b, 0) then e' (sigma a2) else if wire_dec w (nid b, 1) then e' v else if wire_dec w (nid r, 0) then upd (Some v0) (e' a)
     else if in_dec wire_dec w Ml then upd (Some v0) (e' w) else if keep (fst w) then e' w else None).
  assert (KN : forall (w : wire) n, keep (fst w) = true -> n = nid r \/ n = nid b -> forall p, w <> (n, p)).
  { intros w n K Hn p ->. apply keep_neq in K. simpl in K. destruct Hn; subst; tauto. }
  assert (EK : forall w, keep (fst w) = true -> ~ In w Ml -> e w = e' w).
  { intros w K N. unfold e. destruct (wire_dec w (nid b, 0)) as [Q|_]; [exfalso; exact (KN w _ K (or_intror eq_refl) _ Q)|]. destruct (wire_dec w (nid b, 1)) as [Q|_]; [exfalso; exact (KN w _ K (or_intror eq_refl) _ Q)|].
    destruct (wire_dec w (nid r, 0)) as [Q|_]; [exfalso; exact (KN w _ K (or_introl eq_refl) _ Q)|]. destruct (in_dec wire_dec w Ml); [contradiction|]. rewrite K. reflexivity. }
  assert (EM : forall w, In w Ml -> e w = upd (Some v0) (e' w)).
  { intros w N. destruct (Ml_rank w N) as (_ & K & _). unfold e. destruct (wire_dec w (nid b, 0)) as [Q|_]; [exfalso; exact (KN w _ K (or_intror eq_refl) _ Q)|]. destruct (wire_dec w (nid b, 1)) as [Q|_]; [exfalso; exact (KN w _ K (or_intror eq_refl) _ Q)|].
    destruct (wire_dec w (nid r, 0)) as [Q|_]; [exfalso; exact (KN w _ K (or_introl eq_refl) _ Q)|]. destruct (in_dec wire_dec w Ml); [reflexivity|contradiction]. }
  assert (Er : e (nid r, 0) = upd (Some v0) (e' a)).
  { unfold e. pose proof r_neq_b. destruct (wire_dec (nid r, 0) (nid b, 0)); [congruence|]. destruct (wire_dec (nid r, 0) (nid b, 1)); [congruence|]. destruct (wire_dec (nid r, 0) (nid r, 0)); congruence. }
  assert (Eb0 : e (nid b, 0) = e' (sigma a2)) by (unfold e; destruct (wire_dec (nid b, 0) (nid b, 0)); congruence).
  assert (Eb1 : e (nid b, 1) = e' v) by (unfold e; destruct (wire_dec (nid b, 1) (nid b, 0)); [congruence|]; destruct (wire_dec (nid b, 1) (nid b, 1)); congruence).
  assert (Rel : related v0 e e').
  { split.
    - intros w P [<-|H].
      + destruct Aa as (c & Ec & Nc). rewrite sigma_r, Er, Ec. exists (set_cell i (Some v0) c). split; [reflexivity|]. rewrite set_set_same, (set_id X i c None) by assumption. split; [reflexivity|]. eapply nth_set_same. exact Nc.
      + destruct (Am w H) as (c & Ec & Nc). rewrite sigma_keep by apply (Ml_rank w H). rewrite (EM w H), Ec. exists (set_cell i (Some v0) c). split; [reflexivity|]. rewrite set_set_same, (set_id X i c None) by assumption. split; [reflexivity|]. eapply nth_set_same. exact Nc.
    - intros w P H. destruct (prod_cases w P) as [K|[->|[->| ->]]].
      + rewrite sigma_keep by assumption. symmetry. apply EK; [assumption|]. intro Q. apply H. right. assumption.
      + exfalso. apply H. left. reflexivity.
      + rewrite sigma_b0. symmetry. exact Eb0.
      + rewrite sigma_b1. symmetry. exact Eb1. }
  assert (Ix : forall w op m w' ix rest, link g w op -> In m g -> nid m = onode op -> ins m = w' :: ix :: rest -> e ix = Some (VI (oidx op))).
  { intros w op m w' ix rest (m' & ix' & rest' & Hm' & En' & _ & Ei' & c & Hc & Ec & Kc) Hm En Ei. assert (m' = m) by (apply (node_unique O g); auto using Nd; congruence). subst m'.
    rewrite Ei in Ei'. injection Ei' as _ <- _.
    assert (Kx : keep (fst ix) = true).
    { rewrite <- Ec. apply keep_neq. split; intro Q; [assert (c = r) by (apply (node_unique O g); auto using Nd)|assert (c = b) by (apply (node_unique O g); auto using Nd)]; subst c; congruence. }
    assert (Px : produced g ix) by (apply (prod_in m ix Hm); rewrite Ei; simpl; auto).
    assert (NM : ~ In ix Ml).
    { intro Q. apply in_map_iff in Q. destruct Q as (op' & E & Ho'). destruct (mid_op op' Ho') as (k & _ & _ & _ & Hk & Ek & Kk & _). assert (c = k) by (apply (node_unique O g); auto using Nd; rewrite Ek, Ec, <- E; reflexivity). subst k. rewrite Kc in Kk. destruct (oact op'); discriminate. }
    rewrite EK by assumption.
    (* the constant is still there *)
    destruct Px as (k & Hk & Ek & Lk). assert (k = c) by (apply (node_unique O g); auto using Nd; congruence). subst k. rewrite Kc in Lk. simpl in Lk.
    destruct Sr as [S0 _]. destruct (S0 (with_ins O c (map sigma (ins c)))) as (vs & outs & Rd & Ev' & Po); [apply In_result; exists c; rewrite Ec; auto|]. cbn [with_ins nid knd ins] in *.
    assert (Ein : ins c = []). { destruct W as [_ [_ Q]]. specialize (Q c Hc). rewrite Kc in Q. apply Q. }
    rewrite Ein in Rd. injection Rd as <-. rewrite Kc in Ev'. injection Ev' as <-. destruct ix as [x1 x2]. simpl in *. subst x1. rewrite Po. assert (x2 = 0) by lia. subst. reflexivity. }
  exists e, v0. split; [exact Rel|]. destruct Rel as [RM RN] eqn:RelE. split.
  - intros m Hm. destruct (keep (nid m)) eqn:K.
    + destruct Sr as [S0 S1]. destruct (S0 (with_ins O m (map sigma (ins m)))) as (vs' & outs' & Rd & Ev' & Po); [apply In_result; exists m; auto|]. cbn [with_ins nid knd ins] in *.
      destruct (in_dec Nat.eq_dec (nid m) (map onode l3)) as [H3|H3].
      * destruct (mid_of m Hm H3) as (op & w & ix & rest & Ho & En & Ek & Ei & Hw & Hix & Hr' & L).
        destruct (mid_eval v0 e e' op m w ix rest Rel Ho Hm En Ek Ei Hw Hix Hr' (Ix w op m w ix rest L Hm En Ei)) as [_ F].
        destruct (F vs' outs' Rd Ev') as (vs & c & tl & Rd' & Ev2 & -> & Nc). exists vs, (VA c :: tl). split; [assumption|]. split; [assumption|].
        intros [|p].
        -- rewrite EM by (apply in_Ml_id; auto). rewrite Po. simpl. rewrite set_set_same, set_id by assumption. reflexivity.
        -- rewrite EK; [rewrite Po; reflexivity|assumption|]. intro Q. apply in_Ml_id in Q; [|assumption]. destruct Q. discriminate.
      * exists vs', outs'. split; [rewrite <- (related_reads v0 e e' m Rel Hm K H3); assumption|]. split; [assumption|]. intro p. rewrite EK; [apply Po|assumption|]. intro Q. apply in_Ml_id in Q; [|assumption]. destruct Q. contradiction.
    + unfold keep in K. apply andb_false_iff in K. destruct K as [K|K]; apply negb_false_iff, Nat.eqb_eq in K.
      * assert (m = r) by (apply (node_unique O g); auto using Nd). subst m. destruct Aa as (c & Ec & Nc).
        assert (Q1 : e a = Some (VA c)) by (rewrite EK; [assumption|assumption|apply notM_rank; lia]).
        assert (Q2 : e v = Some v0) by (rewrite EK; [assumption|assumption|apply notM_rank; lia]).
        pose proof (Ix a opr r a ixr [v] link_r Hr eq_refl Ir) as Q3. unfold oidx in Q3; simpl in Q3.
        exists [VA c; VI i; v0], [VA (set_cell i (Some v0) c)]. rewrite Ir. cbn [read]. rewrite Q1, Q2, Q3. split; [reflexivity|]. rewrite Kr. cbn [eval_node]. rewrite Nc. split; [reflexivity|].
        intros [|p]; [rewrite Er, Ec; reflexivity|]. unfold e. pose proof r_neq_b. destruct (wire_dec (nid r, S p) (nid b, 0)); [congruence|]. destruct (wire_dec (nid r, S p) (nid b, 1)); [congruence|]. destruct (wire_dec (nid r, S p) (nid r, 0)); [congruence|].
        destruct (in_dec wire_dec (nid r, S p) Ml) as [Q|_]; [apply Ml_rank in Q; destruct Q as (_ & _ & Q); discriminate|]. unfold keep. simpl. rewrite Nat.eqb_refl. simpl. destruct p; reflexivity.
      * assert (m = b) by (apply (node_unique O g); auto using Nd). subst m. destruct (RM a2 prod_a2 a2_M) as (c & Q1 & Q2 & Q4).
        pose proof (Ix a2 opb b a2 ixb [] link_b Hb eq_refl Ib) as Q3. unfold oidx in Q3; simpl in Q3.
        exists [VA c; VI i], [VA (set_cell i None c); v0]. rewrite Ib. cbn [read]. rewrite Q1, Q3. split; [reflexivity|]. rewrite Kb. cbn [eval_node]. rewrite Q4. split; [reflexivity|].
        intros [|[|p]]; [rewrite Eb0; exact Q2|rewrite Eb1; exact Ev|]. unfold e. pose proof r_neq_b. destruct (wire_dec (nid b, S (S p)) (nid b, 0)); [congruence|]. destruct (wire_dec (nid b, S (S p)) (nid b, 1)); [congruence|]. destruct (wire_dec (nid b, S (S p)) (nid r, 0)); [congruence|].
        destruct (in_dec wire_dec (nid b, S (S p)) Ml) as [Q|_]; [apply Ml_rank in Q; destruct Q as (_ & _ & Q); discriminate|]. unfold keep. simpl. rewrite Nat.eqb_refl, andb_false_r. destruct p; reflexivity.
  - intros w Hw. assert (NW : forall m p, In m g -> w <> (nid m, p)) by (intros m p Hm ->; apply Hw; change (fst (nid m, p)) with (nid m); apply in_map, Hm).
    unfold e. destruct (wire_dec w (nid b, 0)) as [Q|_]; [exfalso; exact (NW b _ Hb Q)|]. destruct (wire_dec w (nid b, 1)) as [Q|_]; [exfalso; exact (NW b _ Hb Q)|]. destruct (wire_dec w (nid r, 0)) as [Q|_]; [exfalso; exact (NW r _ Hr Q)|].
    assert (E'w : e' w = None). { destruct Sr as [_ S1]. apply S1. intro Q. apply Hw. apply in_map_iff in Q. destruct Q as (n & E & Hn). apply In_result in Hn. destruct Hn as (m & Hm & _ & ->). rewrite <- E. apply in_map_iff. exists m. auto. }
    rewrite E'w. destruct (in_dec wire_dec w Ml); [reflexivity|]. destruct (keep (fst w)); reflexivity.
Qed.

Theorem elide_same : same_behaviour sem g result.
Proof.
  assert (Tg : topological g) by apply W. pose proof topological_result as Tr'.
  split.
  { intros n H. apply In_result in H. destruct H as (m & Hm & _ & ->). exists m. auto. }
  destruct (run_region sem g) as [e|] eqn:Eg; destruct (run_region sem result) as [e2|] eqn:E2.
  - pose proof (run_sol O X sem g e Tg Eg) as Sg. destruct (forward e Sg) as (e' & v0 & Rel & Sr).
    destruct (sol_run O X sem result e' Tr' Sr) as (e3 & E3 & Q). assert (e3 = e2) by congruence. subst e3.
    assert (NM : forall m p, In m g -> (is_br (knd m) = true -> p <> 0) -> keep (nid m) = true -> ~ In (nid m, p) Mr).
    { intros m p Hm Hp K [H|H].
      - apply keep_neq in K. destruct K as [K _]. apply K. injection H as H _. auto.
      - apply in_Ml_id in H; [|assumption]. destruct H as [H3 ->]. destruct (mid_of m Hm H3) as (op & _ & _ & _ & _ & _ & Ek & _). apply Hp; [|reflexivity]. rewrite Ek. destruct (oact op); reflexivity. }
    split.
    + intros m Hm Bm. assert (K : keep (nid m) = true).
      { apply keep_neq. split; intro H; [assert (m = r) by (apply (node_unique O g); auto using Nd)|assert (m = b) by (apply (node_unique O g); auto using Nd)]; subst m; rewrite ?Kr, ?Kb in Bm; discriminate. }
      exists (with_ins O m (map sigma (ins m))). split; [apply In_result; exists m; auto|]. split; [reflexivity|]. split; [reflexivity|]. cbn [with_ins ins].
      rewrite (read_ext X e2 e') by (intros; apply Q). apply (related_reads v0 e e' m Rel Hm K). intro H3. destruct (mid_of m Hm H3) as (op & _ & _ & _ & _ & _ & Ek & _). rewrite Ek in Bm. destruct (oact op); discriminate.
    + intros n p Hn Hp. apply In_result in Hn. destruct Hn as (m & Hm & K & ->). cbn [with_ins nid knd] in *. rewrite Q.
      destruct Rel as [_ RN]. destruct Sg as [S0 _]. destruct (S0 m Hm) as (vs & outs & Rd & Ev & Po).
      destruct (le_lt_dec (n_outs (knd m)) p) as [L|L].
      * rewrite Po. assert (Hn : nth_error outs p = None) by (apply nth_error_None; rewrite (eval_node_length O X sem _ _ _ Ev); assumption). rewrite Hn.
        destruct Sr as [S0' _]. destruct (S0' (with_ins O m (map sigma (ins m)))) as (vs' & outs' & Rd' & Ev' & Po'); [apply In_result; exists m; auto|]. cbn [with_ins nid knd ins] in *.
        rewrite Po'. apply nth_error_None. rewrite (eval_node_length O X sem _ _ _ Ev'). assumption.
      * rewrite <- (RN (nid m, p)); [rewrite sigma_keep by assumption; reflexivity|exists m; auto|]. apply NM; assumption.
  - pose proof (run_sol O X sem g e Tg Eg) as Sg. destruct (forward e Sg) as (e' & v0 & Rel & Sr). destruct (sol_run O X sem result e' Tr' Sr) as (e3 & E3 & _). congruence.
  - pose proof (run_sol O X sem result e2 Tr' E2) as Sr. destruct (backward e2 Sr) as (e & v0 & Rel & Sg). destruct (sol_run O X sem g e Tg Sg) as (e3 & E3 & _). congruence.
  - exact I.
Qed.
End Meaning.
End Pair.
End Elide.
