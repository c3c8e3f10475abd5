(** Scanning one array and eliding what was found. *)
From Coq Require Import List Bool Arith Lia.
From Verif Require Import BorrowSpec BorrowModel BorrowGraph BorrowSol BorrowElide.
Import ListNotations.

Section Scan.
Variables (O T : Type) (is_array : T -> bool) (elem : T -> T) (ty : wire -> T).
Notation graph := (graph O).
Notation node := (node O).
Notation wfg := (wfg O T is_array elem ty).
Notation chain := (chain O).
Notation link := (link O).

Definition elided (g g' : graph) (nr nb : nat) : Prop :=
  exists a a2 v ixr ixb (r b : node), nid r = nr /\ nid b = nb /\ In r g /\ In b g /\ knd r = KReturn /\ knd b = KBorrow /\ ins r = [a; ixr; v] /\ ins b = [a2; ixb] /\ a2 <> (nid b, 0) /\ a2 <> (nid b, 1) /\ a <> (nid b, 0) /\ nid r <> nid b /\
    g' = result O g a a2 v r b /\ keep O r b (fst a) = true /\ (a2 = (nr, 0) \/ keep O r b (fst a2) = true) /\
    (forall pos : nat -> nat, (forall m w, In m g -> In w (ins m) -> pos (fst w) < pos (nid m)) -> pos nr < pos nb).

Lemma chain_pos : forall (pos : nat -> nat) g, (forall m w, In m g -> In w (ins m) -> pos (fst w) < pos (nid m)) ->
  forall ops w, chain g w ops -> forall op, In op ops -> pos (fst w) < pos (onode op).
Proof.
  intros pos g H. induction ops as [|x ops IH]; intros w C op Ho; [destruct Ho|]. destruct C as [(m & ix & rest & Hm & En & _ & Ei & _) C].
  assert (P : pos (fst w) < pos (onode x)) by (rewrite <- En; apply H; [assumption|rewrite Ei; left; reflexivity]).
  destruct Ho as [<-|Ho]; [assumption|]. specialize (IH _ C op Ho). simpl in IH. lia.
Qed.
Theorem elide_ok : forall g start l1 nb0 i l2 nr l3 nb l4, wfg g ->
  chain g start (l1 ++ (nb0, i, ABorrow) :: l2 ++ (nr, i, AReturn) :: l3 ++ (nb, i, ABorrow) :: l4) -> ~ In i (map oidx l2) -> ~ In i (map oidx l3) ->
  exists g', elide O g (nr, nb) = Some g' /\ wfg g' /\ chain g' start (l1 ++ (nb0, i, ABorrow) :: l2 ++ l3 ++ l4) /\ (forall X sem, same_behaviour (X := X) sem g g') /\ elided g g' nr nb.
Proof.
  intros g start l1 nb0 i l2 nr l3 nb l4 W C N2 N3.
  pose proof C as C'. apply chain_app in C'. destruct C' as [C1 CC]. destruct CC as [L0 CC]. apply chain_app in CC. destruct CC as [C2 [Lr CC]]. apply chain_app in CC. destruct CC as [C3 [Lb C4]].
  assert (Rk : forall op, In op (l1 ++ (nb0, i, ABorrow) :: l2 ++ (nr, i, AReturn) :: l3 ++ (nb, i, ABorrow) :: l4) -> rank O g (fst start) < rank O g (onode op)) by (apply (chain_rank O T is_array elem ty g _ start W C)).
  pose proof Lr as Lr'. pose proof Lb as Lb'.
  destruct Lr as (r & ixr & restr & Hr & Er & Kr & Ir & _). destruct Lb as (b & ixb & restb & Hb & Eb & Kb & Ib & _). cbn [onode oact fst snd akind] in Er, Kr, Eb, Kb, Ir, Ib.
  change (onode (nr, i, AReturn)) with nr in *. change (onode (nb, i, ABorrow)) with nb in *. change (onode (nb0, i, ABorrow)) with nb0 in *.
  set (a := cend (nb0, 0) l2) in *. set (a2 := cend (nr, 0) l3) in *.
  assert (Q : exists v, restr = [v]). { destruct W as [_ [_ W2]]. specialize (W2 r Hr). rewrite Kr in W2. destruct W2 as (x & y & z & E & _). rewrite Ir in E. injection E as _ _ E. exists z. assumption. }
  destruct Q as (v & ->).
  assert (Q : restb = []). { destruct W as [_ [_ W2]]. specialize (W2 b Hb). rewrite Kb in W2. destruct W2 as (x & y & E & _). rewrite Ib in E. injection E as _ _ E. assumption. }
  subst restb. subst nr nb.
  assert (A2 : a2 = (nid r, 0) \/ rank O g (nid r) < rank O g (fst a2)).
  { unfold a2. destruct (cend_in l3 (nid r, 0)) as [[_ ->]|(op & Ho & ->)]; [left; reflexivity|right]. exact (chain_rank O T is_array elem ty g l3 _ W C3 op Ho). }
  assert (Ta : ty a2 = ty a).
  { unfold a2. rewrite (chain_ty O T is_array elem ty g l3 _ W C3). apply (link_typed O T is_array elem ty g a _ W Lr'). }
  set (res := result O g a a2 v r b).
  assert (KN : forall n, n <> nid r /\ n <> nid b -> keep O r b n = true) by (intros n [N1 N2']; unfold keep; apply Nat.eqb_neq in N1, N2'; rewrite N1, N2'; reflexivity).
  exists res.
  split; [apply (elide_result O T is_array elem ty) with (ixr := ixr) (ixb := ixb); assumption|].
  split; [apply (wfg_result O T is_array elem ty g a a2 v ixr ixb r b); assumption|].
  pose proof (ranks O T is_array elem ty g a a2 v ixr ixb r b W Hr Hb Ir Ib A2 Ta) as R.
  assert (C0 : chain g (cend start l1) ((nb0, i, ABorrow) :: l2 ++ (nid r, i, AReturn) :: l3 ++ [(nid b, i, ABorrow)])).
  { split; [assumption|]. apply chain_app. split; [assumption|]. split; [assumption|]. apply chain_app. split; [assumption|]. split; [assumption|exact I]. }
  assert (K2 : forall op, In op ((nb0, i, ABorrow) :: l2) -> keep O r b (onode op) = true) by (intros op H; eapply (keep2 O T is_array elem ty); eauto).
  assert (K3 : forall op, In op l3 -> keep O r b (onode op) = true) by (intros op H; eapply (keep3 O T is_array elem ty); eauto).
  assert (K1 : forall op, In op l1 -> keep O r b (onode op) = true).
  { intros op H. apply KN. apply in_split in H. destruct H as (x & y & E). subst l1. rewrite <- app_assoc in C. apply chain_app in C. destruct C as [_ [_ C]].
    pose proof (chain_rank O T is_array elem ty g _ _ W C) as Z. simpl in Z.
    assert (Z1 := Z (nid r, i, AReturn)). assert (Z2 := Z (nid b, i, ABorrow)). unfold onode in *. simpl in Z1, Z2.
    split; intro E; rewrite E in *; [specialize (Z1 ltac:(apply in_or_app; right; right; apply in_or_app; right; left; reflexivity))|specialize (Z2 ltac:(apply in_or_app; right; right; apply in_or_app; right; right; apply in_or_app; right; left; reflexivity))]; lia. }
  assert (K4 : forall op, In op l4 -> keep O r b (onode op) = true).
  { intros op H. pose proof (chain_rank O T is_array elem ty g _ _ W C4 op H) as Z. unfold onode in *. simpl in Z. apply KN. split; intro E; rewrite E in *; lia. }
  assert (Ks : keep O r b (fst start) = true).
  { assert (Z1 := Rk (nid r, i, AReturn)). assert (Z2 := Rk (nid b, i, ABorrow)). unfold onode in *. simpl in Z1, Z2. apply KN.
    split; intro E; rewrite E in *; [specialize (Z1 ltac:(apply in_or_app; right; right; apply in_or_app; right; left; reflexivity))|specialize (Z2 ltac:(apply in_or_app; right; right; apply in_or_app; right; right; apply in_or_app; right; left; reflexivity))]; lia. }
  assert (CR : forall ops w, chain g w ops -> (forall op, In op ops -> keep O r b (onode op) = true) -> chain res (sigma O a a2 v r b w) ops).
  { apply (chain_result O T is_array elem ty g a a2 v r b); assumption. }
  assert (Rb : nid r <> nid b) by (intro E; rewrite E in R; lia).
  split; [|split].
  - rewrite app_comm_cons, app_assoc. apply chain_app.
    assert (E1 : sigma O a a2 v r b start = start) by (apply sigma_keep; assumption).
    assert (Q1 : chain res start (l1 ++ (nb0, i, ABorrow) :: l2)).
    { rewrite <- E1. apply CR; [apply chain_app; split; [assumption|split; assumption]|]. intros op H. apply in_app_or in H. destruct H; auto. }
    split; [exact Q1|]. rewrite cend_app. change (cend (cend start l1) ((nb0, i, ABorrow) :: l2)) with a.
    assert (Sr : sigma O a a2 v r b (nid r, 0) = a) by (eapply (sigma_r O T is_array elem ty); eauto).
    assert (Sb : sigma O a a2 v r b (nid b, 0) = sigma O a a2 v r b a2) by (eapply (sigma_b0 O T is_array elem ty); eauto).
    apply chain_app. split; [pose proof (CR l3 (nid r, 0) C3 K3) as Q3; rewrite Sr in Q3; exact Q3|].
    assert (E2 : cend a l3 = sigma O a a2 v r b a2).
    { unfold a2. destruct l3 as [|op l3']; [simpl; unfold a2 in Sr; symmetry; exact Sr|]. simpl. destruct (cend_in l3' (onode op, 0)) as [[-> E]|(op' & H & E)].
      - simpl. symmetry. apply sigma_keep. apply K3. left. reflexivity.
      - rewrite E. symmetry. apply sigma_keep. apply K3. right. assumption. }
    rewrite E2, <- Sb. apply CR; assumption.
  - intros X sem. apply (elide_same O T is_array elem ty g a a2 v ixr ixb r b W Hr Hb Kr Kb Ir Ib A2 Ta X sem i nb0 l2 l3 (cend start l1) C0 N2 N3).
  - exists a, a2, v, ixr, ixb, r, b. repeat (split; [first [reflexivity|assumption]|]).
    split; [intro E; rewrite E in R; simpl in R; lia|]. split; [intro E; rewrite E in R; simpl in R; lia|]. split; [intro E; rewrite E in R; simpl in R; lia|]. split; [assumption|]. split; [reflexivity|].
    split; [apply KN; split; intro E; rewrite E in R; lia|]. split; [destruct A2 as [A2|A2]; [left; assumption|right]; apply KN; split; intro E; rewrite E in *; lia|].
    intros pos Hp. apply (chain_pos pos g Hp (l3 ++ [(nid b, i, ABorrow)]) (nid r, 0)) with (op := (nid b, i, ABorrow)); [|apply in_or_app; right; left; reflexivity].
    apply chain_app. split; [assumption|split; [assumption|exact I]].
Qed.

(** ** The scan *)
Definition at_idx (i : nat) (l : list aop) : list aop := filter (fun op => Nat.eqb (oidx op) i) l.
Definition step_idx (s : option (nat * option nat)) (op : aop) : option (nat * option nat) * bool :=
  match oact op, s with
  | ABorrow, None => (Some (onode op, None), false)
  | AReturn, Some (b0, Some _) => (None, false)
  | AReturn, Some (b0, None) => (Some (b0, Some (onode op)), false)
  | ABorrow, Some (b0, Some _) => (Some (b0, None), true)
  | ABorrow, Some (b0, None) => (None, false)
  | AReturn, None => (None, false)
  end.
Fixpoint run_idx (s : option (nat * option nat)) (l : list aop) : option (nat * option nat) * bool :=
  match l with [] => (s, false) | op :: l => let (s1, x) := step_idx s op in let (s2, y) := run_idx s1 l in (s2, x || y) end.
Lemma run_idx_app : forall l1 l2 s, run_idx s (l1 ++ l2) = let (s1, x) := run_idx s l1 in let (s2, y) := run_idx s1 l2 in (s2, x || y).
Proof.
  induction l1 as [|op l1 IH]; intros l2 s; simpl; [destruct (run_idx s l2); reflexivity|]. destruct (step_idx s op) as [s1 x]. rewrite IH. destruct (run_idx s1 l1) as [s2 y]. destruct (run_idx s2 l2) as [s3 z]. rewrite orb_assoc. reflexivity.
Qed.
Lemma get_del : forall b i j, get (del b i) j = if Nat.eqb i j then None else get b j.
Proof.
  induction b as [|[k x] b IH]; intros i j; simpl; [destruct (Nat.eqb i j); reflexivity|]. destruct (Nat.eqb_spec k i) as [->|D]; simpl; rewrite IH.
  - destruct (Nat.eqb i j) eqn:E; reflexivity.
  - destruct (Nat.eqb_spec i j) as [->|]; [|reflexivity]. destruct (Nat.eqb_spec k j); [congruence|reflexivity].
Qed.
Lemma get_put : forall b i x j, get (put b i x) j = if Nat.eqb i j then Some x else get b j.
Proof. intros b i x j. unfold put. simpl. rewrite get_del. destruct (Nat.eqb i j); reflexivity. Qed.
(** The map after one operation. *)
Lemma scan_op_get : forall b op j, get (fst (scan_op b op)) j = if Nat.eqb (oidx op) j then fst (step_idx (get b j) op) else get b j.
Proof.
  intros b [[n i] a] j. unfold scan_op, step_idx, oidx, oact, onode. simpl. destruct a; destruct (get b i) as [[b0 [r|]]|] eqn:G; simpl; rewrite ?get_put, ?get_del; destruct (Nat.eqb_spec i j) as [<-|]; try reflexivity; rewrite G; reflexivity.
Qed.
Lemma scan_op_el : forall b op, snd (scan_op b op) = [] <-> snd (step_idx (get b (oidx op)) op) = false.
Proof. intros b [[n i] a]. unfold scan_op, step_idx, oidx, oact. simpl. destruct a; destruct (get b i) as [[b0 [r|]]|]; simpl; split; congruence. Qed.
Lemma scan_idx : forall ops b j, get (fst (scan b ops)) j = fst (run_idx (get b j) (at_idx j ops)).
Proof.
  induction ops as [|op ops IH]; intros b j; [reflexivity|]. simpl. pose proof (scan_op_get b op j) as G. destruct (scan_op b op) as [b1 e1]. simpl in G. specialize (IH b1 j). destruct (scan b1 ops) as [b2 e2]. simpl in *. rewrite IH, G.
  destruct (Nat.eqb (oidx op) j); [|reflexivity]. simpl. destruct (step_idx (get b j) op) as [s1 x]. simpl. destruct (run_idx s1 (at_idx j ops)). reflexivity.
Qed.
Lemma scan_none : forall ops b, (forall j, snd (run_idx (get b j) (at_idx j ops)) = false) -> snd (scan b ops) = [].
Proof.
  induction ops as [|op ops IH]; intros b H; [reflexivity|]. simpl. pose proof (scan_op_get b op) as G. pose proof (scan_op_el b op) as El.
  assert (H0 := H (oidx op)). simpl in H0. rewrite Nat.eqb_refl in H0. simpl in H0. destruct (step_idx (get b (oidx op)) op) as [s1 x] eqn:S1. destruct (run_idx s1 (at_idx (oidx op) ops)) as [s2 y] eqn:S2. simpl in H0. apply orb_false_iff in H0. destruct H0 as [-> ->].
  destruct (scan_op b op) as [b1 e1]. simpl in *. assert (e1 = []) by (apply El; reflexivity). subst e1.
  specialize (IH b1). destruct (scan b1 ops) as [b2 e2]. simpl in *. apply IH. intro j. rewrite (G j). specialize (H j). simpl in H. destruct (Nat.eqb_spec (oidx op) j) as [Ej|D].
  - rewrite <- Ej, S1. simpl. rewrite S2. reflexivity.
  - exact H.
Qed.

Lemma filter_last : forall (f : aop -> bool) l x l', filter f l = l' ++ [x] -> exists l1 l2, l = l1 ++ x :: l2 /\ filter f l1 = l' /\ filter f l2 = [] /\ f x = true.
Proof.
  intros f l x. induction l as [|y l IH]; intros l' E; simpl in E; [destruct l'; discriminate|]. destruct (f y) eqn:F.
  - destruct l' as [|z l'].
    + injection E as -> E. exists [], l. auto.
    + injection E as -> E. destruct (IH l' E) as (l1 & l2 & -> & E1 & E2 & E3). exists (z :: l1), l2. simpl. rewrite F, E1. auto.
  - destruct (IH l' E) as (l1 & l2 & -> & E1 & E2 & E3). exists (y :: l1), l2. simpl. rewrite F, E1. auto.
Qed.
Lemma no_idx : forall i l, at_idx i l = [] -> ~ In i (map oidx l).
Proof.
  intros i l E K. apply in_map_iff in K. destruct K as (op & Eo & H). assert (Q : In op (at_idx i l)) by (apply filter_In; split; [assumption|apply Nat.eqb_eq; assumption]). rewrite E in Q. destruct Q.
Qed.
(** What the map says about the operations that are left. *)
Definition inv (b : entries) (kept : list aop) : Prop :=
  forall i, run_idx None (at_idx i kept) = (get b i, false) /\
    match get b i with
    | None => True
    | Some (b0, None) => exists l, at_idx i kept = l ++ [(b0, i, ABorrow)]
    | Some (b0, Some r) => exists l, at_idx i kept = l ++ [(b0, i, ABorrow); (r, i, AReturn)]
    end.
Lemma at_idx_app : forall i l1 l2, at_idx i (l1 ++ l2) = at_idx i l1 ++ at_idx i l2.
Proof. intros. apply filter_app. Qed.
Lemma inv_keep : forall b kept op b', inv b kept -> snd (scan_op b op) = [] -> fst (scan_op b op) = b' -> inv b' (kept ++ [op]).
Proof.
  intros b kept op b' H El <- i. pose proof (scan_op_get b op i) as G. destruct (H i) as [R Q]. rewrite at_idx_app, run_idx_app, R. apply scan_op_el in El. simpl.
  destruct (Nat.eqb_spec (oidx op) i) as [Ei|D]; simpl.
  - subst i. rewrite G. destruct (step_idx (get b (oidx op)) op) as [s x] eqn:S1. simpl in El. subst x. simpl. split; [reflexivity|].
    destruct op as [[n i] a]. unfold step_idx, oact, oidx, onode in *. simpl in *. destruct a; destruct (get b i) as [[b0 [r|]]|]; injection S1 as <-; try exact I; try discriminate.
    + exists (at_idx i kept). reflexivity.
    + destruct Q as (l & E). exists l. rewrite E, <- app_assoc. reflexivity.
  - rewrite G. split; [reflexivity|]. rewrite app_nil_r. exact Q.
Qed.
Definition same_all (g g' : graph) : Prop := forall X sem, same_behaviour (X := X) sem g g'.
Lemma same_all_refl : forall g, same_all g g.
Proof. intros g X sem. apply same_refl. Qed.
Lemma same_all_trans : forall a b c, same_all a b -> same_all b c -> same_all a c.
Proof. intros a b c A B X sem. eapply same_trans; [apply A|apply B]. Qed.
Lemma elide_all_app : forall l1 l2 g, elide_all O g (l1 ++ l2) = match elide_all O g l1 with Some g => elide_all O g l2 | None => None end.
Proof. induction l1 as [|e l1 IH]; intros l2 g; simpl; [reflexivity|]. destruct (elide O g e); [apply IH|reflexivity]. Qed.

(** Elisions one after the other; [P] is any property that each of them keeps. *)
Theorem scan_ok : forall (P : graph -> Prop) (V : list nat), (forall g g' nr nb, wfg g -> P g -> elided g g' nr nb -> In nr V -> In nb V -> P g') ->
  forall ops b kept g start, wfg g -> P g -> chain g start (kept ++ ops) -> inv b kept -> incl (map onode (kept ++ ops)) V ->
  exists g' kept', elide_all O g (snd (scan b ops)) = Some g' /\ wfg g' /\ P g' /\ chain g' start kept' /\ inv (fst (scan b ops)) kept' /\ same_all g g' /\ incl kept' (kept ++ ops).
Proof.
  intros P V HP. induction ops as [|op ops IH]; intros b kept g start W Pg C H HV.
  - exists g, kept. rewrite app_nil_r in C. simpl. repeat (split; [solve [auto using same_all_refl]|]). rewrite app_nil_r. apply incl_refl.
  - cbn [scan]. pose proof (inv_keep b kept op) as IK. destruct (scan_op b op) as [b1 e1] eqn:S1. simpl in IK.
    destruct e1 as [|[er eb] e1].
    + specialize (IK b1 H eq_refl eq_refl). assert (C' : chain g start ((kept ++ [op]) ++ ops)) by (rewrite <- app_assoc; exact C).
      assert (HV' : incl (map onode ((kept ++ [op]) ++ ops)) V) by (rewrite <- app_assoc; exact HV).
      destruct (IH b1 (kept ++ [op]) g start W Pg C' IK HV') as (g' & kept' & Q). destruct (scan b1 ops) as [b2 e2]. simpl in *. exists g', kept'. destruct Q as (Q1 & Q2 & Q3 & Q4 & Q5 & Q6 & Q7). rewrite <- app_assoc in Q7. auto 10.
    + (* an elision *)
      destruct op as [[n i] a]. unfold scan_op in S1. destruct a; destruct (get b i) as [[b0 [r|]]|] eqn:Gi; try discriminate. injection S1 as <- <- <- <-.
      destruct (H i) as [Ri Qi]. rewrite Gi in Qi. destruct Qi as (l & El).
      assert (El' : at_idx i kept = (l ++ [(b0, i, ABorrow)]) ++ [(r, i, AReturn)]) by (rewrite <- app_assoc; exact El).
      apply filter_last in El'. destruct El' as (m1 & l3 & Ek & Em1 & E3 & _). apply filter_last in Em1. destruct Em1 as (l1 & l2 & Em & E1' & E2' & _). subst m1.
      assert (C' : chain g start (l1 ++ (b0, i, ABorrow) :: l2 ++ (r, i, AReturn) :: l3 ++ (n, i, ABorrow) :: ops)).
      { rewrite Ek in C. rewrite <- !app_assoc in C. simpl in C. exact C. }
      destruct (elide_ok g start l1 b0 i l2 r l3 n ops W C' (no_idx i l2 E2') (no_idx i l3 E3)) as (g1 & Eg & W1 & C1 & SB & EL).
      set (kept1 := l1 ++ (b0, i, ABorrow) :: l2 ++ l3).
      assert (Inr : In r V). { apply HV. rewrite map_app. apply in_or_app. left. apply in_map_iff. exists (r, i, AReturn). split; [reflexivity|]. rewrite Ek. apply in_or_app. right. left. reflexivity. }
      assert (Inn : In n V). { apply HV. rewrite map_app. apply in_or_app. right. left. reflexivity. }
      assert (P1 : P g1) by (apply (HP g g1 r n W Pg EL Inr Inn)).
      assert (Ck : chain g1 start (kept1 ++ ops)). { unfold kept1. rewrite <- app_assoc. simpl. rewrite <- app_assoc. exact C1. }
      assert (Ik : inv (put b i (b0, None)) kept1).
      { intro j. rewrite get_put. unfold kept1. destruct (H j) as [Rj Qj]. rewrite Ek in Rj, Qj. rewrite <- app_assoc in Rj, Qj. rewrite !at_idx_app in *. simpl in *. rewrite !at_idx_app in *. simpl in *.
        change (oidx (r, i, AReturn)) with i in *. change (oidx (b0, i, ABorrow)) with i in *. destruct (Nat.eqb_spec i j) as [Ei|D].
        - subst j. unfold at_idx at 2 in Rj. unfold at_idx in Rj, Qj. rewrite E2', E3 in *. fold (at_idx i l1) in *. unfold at_idx. rewrite E2', E3. fold (at_idx i l1). simpl in *. rewrite Gi in Rj.
          split; [|exists (at_idx i l1); reflexivity].
          rewrite run_idx_app in *. destruct (run_idx None (at_idx i l1)) as [s1 x]. simpl in Rj |- *. unfold step_idx, oact, onode in *. simpl in *.
          destruct s1 as [[b1 [r1|]]|]; simpl in *; injection Rj; intros; try discriminate; subst; try congruence.
        - exact (conj Rj Qj). }
      assert (Vk : incl (map onode (kept1 ++ ops)) V).
      { intros x Hx. apply HV. rewrite Ek. unfold kept1 in Hx. rewrite !map_app in *. simpl in *. rewrite !map_app in *. simpl in *. rewrite !in_app_iff in *. simpl in *. rewrite !in_app_iff in *. tauto. }
      destruct (IH (put b i (b0, None)) kept1 g1 start W1 P1 Ck Ik Vk) as (g' & kept' & Q). destruct (scan (put b i (b0, None)) ops) as [b2 e2]. simpl in *. rewrite Eg. exists g', kept'.
      destruct Q as (Q1 & Q2 & Q3 & Q4 & Q5 & Q6 & Q7). do 5 (split; [assumption|]). split; [eapply same_all_trans; [exact SB|exact Q6]|].
      intros x Hx. apply Q7 in Hx. rewrite Ek. unfold kept1 in Hx. rewrite !in_app_iff in *. simpl in *. rewrite !in_app_iff in *. simpl. tauto.
Qed.
End Scan.
