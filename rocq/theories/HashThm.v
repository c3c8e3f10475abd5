(** Renumbering, and what equal hashes mean. *)
From Coq Require Import List Bool Arith Lia Permutation.
From Verif Require Import TopoSpec TopoModel TopoProofs HashSpec HashModel HashProofs.
Import ListNotations.

Lemma Forall2_in_l : forall (A B : Type) (R : A -> B -> Prop) l l' x, Forall2 R l l' -> In x l -> exists y, In y l' /\ R x y.
Proof. intros A B R l l' x F. induction F as [|a b l l' Hab F IH]; intros []; [subst; exists b; simpl; auto|]. destruct (IH H) as (y & Hy & Ry). exists y. simpl. auto. Qed.
Lemma Forall2_in_r : forall (A B : Type) (R : A -> B -> Prop) l l' y, Forall2 R l l' -> In y l' -> exists x, In x l /\ R x y.
Proof. intros A B R l l' y F. induction F as [|a b l l' Hab F IH]; intros []; [subst; exists a; simpl; auto|]. destruct (IH H) as (x & Hx & Rx). exists x. simpl. auto. Qed.
Lemma Forall2_same_length : forall (A B : Type) (R : A -> B -> Prop) l l', Forall2 R l l' -> length l = length l'.
Proof. intros A B R l l' F. induction F; simpl; congruence. Qed.

Section Thm.
Variables (Op H : Type) (is_dfg : Op -> bool).
Variables (mix : list (H + Op) -> H) (lhash : option H -> nat -> nat -> H) (xor : H -> H -> H) (zero : H).
Notation node := (node Op).
Notation hash_input := (hash_input H lhash xor zero).
Notation hash_inputs := (hash_inputs Op H lhash xor zero).
Notation hash_node := (hash_node Op H mix lhash xor zero).
Notation circuit_hash := (circuit_hash Op H is_dfg mix lhash xor zero).
Notation region_val := (region_val Op H mix lhash xor zero).
Notation good_walk := (good_walk Op).

(** ** Renumbering *)
Section Renumber.
Variable f : nat -> nat.
Hypothesis f_inj : forall x y, f x = f y -> x = y.
Hypothesis xor_comm : forall a b, xor a b = xor b a.
Hypothesis xor_assoc : forall a b c, xor a (xor b c) = xor (xor a b) c.

Lemma renumbered_inv : forall n n' : node, renumbered f n n' -> nid n' = f (nid n) /\ nop n' = nop n /\
  Forall2 (fun a b => Permutation (map (fun l => (f (fst l), snd l)) a) b) (links n) (links n') /\
  exists ks2, Forall2 (renumbered f) (kids n) ks2 /\ firstn 2 ks2 = firstn 2 (kids n') /\ Permutation ks2 (kids n').
Proof. intros n n' R. inversion R; subst; simpl. repeat (split; [auto|]). eauto. Qed.
Lemma ids2 : forall ks ks2 : list node, Forall2 (renumbered f) ks ks2 -> map nid ks2 = map f (map nid ks).
Proof. intros ks ks2 F. induction F as [|a b ks ks2 R F IH]; [reflexivity|]. simpl. rewrite IH. apply renumbered_inv in R. destruct R as [-> _]. reflexivity. Qed.
Lemma nodup_f : forall l, NoDup l -> NoDup (map f l).
Proof. intros l N. induction N as [|x l Nx N IH]; simpl; constructor; [|assumption]. intro K. apply in_map_iff in K. destruct K as (y & E & Hy). apply f_inj in E. subst. contradiction. Qed.
Lemma renumbered_wn : forall n n' : node, renumbered f n n' -> well_numbered n -> well_numbered n'.
Proof.
  induction n as [i o l ks IH] using node_ind'. intros n' R W. inversion W as [? ? ? ? N F]; subst. inversion R as [? ? ? ? ls' ks2 ks' L K E P]; subst. constructor.
  - eapply Permutation_NoDup; [apply Permutation_map; exact P|]. rewrite (ids2 _ _ K). apply nodup_f. assumption.
  - rewrite Forall_forall in *. intros x Hx. apply (Permutation_in _ (Permutation_sym P)) in Hx. destruct (Forall2_in_r _ _ _ _ _ _ K Hx) as (y & Hy & Ry). eapply IH; eauto.
Qed.
Lemma fold_perm : forall (g : nat * nat -> H) l l', Permutation l l' -> forall z, fold_left (fun t x => xor (g x) t) l z = fold_left (fun t x => xor (g x) t) l' z.
Proof.
  intros g l l' P. induction P as [|x l l' P IH|x y l|l l' l'' P1 IH1 P2 IH2]; intro z; simpl; [reflexivity|apply IH| |rewrite IH1; apply IH2].
  f_equal. rewrite !xor_assoc, (xor_comm (g x)). reflexivity.
Qed.
Lemma hash_input_f : forall st st' p a b, (forall x, st' (f x) = st x) -> Permutation (map (fun l => (f (fst l), snd l)) a) b -> hash_input st' p b = hash_input st p a.
Proof.
  intros st st' p a b E P. unfold HashModel.hash_input. rewrite <- (fold_perm (fun x => lhash (st' (fst x)) (snd x) p) _ _ P). clear P. generalize zero. induction a as [|x a IH]; intro z; [reflexivity|]. simpl. rewrite E. apply IH.
Qed.
Lemma hash_inputs_f : forall st st', (forall x, st' (f x) = st x) -> forall ls ls', Forall2 (fun a b => Permutation (map (fun l => (f (fst l), snd l)) a) b) ls ls' ->
  forall p, hash_inputs st' p ls' = hash_inputs st p ls.
Proof. intros st st' E ls ls' F. induction F as [|a b ls ls' P F IH]; intro p; simpl; [reflexivity|]. rewrite IH, (hash_input_f st st' p a b E P). reflexivity. Qed.

Lemma heads_to : forall ks ks2 ks' : list node, Forall2 (renumbered f) ks ks2 -> firstn 2 ks2 = firstn 2 ks' -> forall i out r, ks = i :: out :: r -> exists i2 o2 r', ks' = i2 :: o2 :: r' /\ renumbered f out o2.
Proof.
  intros ks ks2 ks' K E2 i out r ->. inversion K as [|? i2 ? k2 Ri K2 Q1 Q2]; subst. inversion K2 as [|? o2 ? r2 Ro K3 Q1 Q2]; subst. destruct ks' as [|i' [|o' r']]; try discriminate. simpl in E2. injection E2 as <- <-. eauto.
Qed.
Lemma heads_from : forall ks ks2 ks' : list node, Forall2 (renumbered f) ks ks2 -> firstn 2 ks2 = firstn 2 ks' -> forall i2 o2 r', ks' = i2 :: o2 :: r' -> exists i out r, ks = i :: out :: r /\ renumbered f out o2.
Proof.
  intros ks ks2 ks' K E2 i2 o2 r' ->. destruct ks2 as [|i3 [|o3 r3]]; try discriminate. simpl in E2. injection E2 as -> ->. inversion K as [|i ? k1 ? Ri K2 Q1 Q2]; subst. inversion K2 as [|out ? r ? Ro K3 Q1 Q2]; subst. eauto.
Qed.
Section Region.
Variables (ks ks2 ks' : list node) (inner1 inner2 : node -> res H).
Hypothesis K : Forall2 (renumbered f) ks ks2.
Hypothesis P : Permutation ks2 ks'.
Hypothesis E2 : firstn 2 ks2 = firstn 2 ks'.
Hypothesis N : NoDup (map nid ks).
Hypothesis inn : forall k k' h, In k ks -> renumbered f k k' -> (inner1 k = Ok h <-> inner2 k' = Ok h).
Lemma kid_to : forall k, In k ks -> exists k', In k' ks' /\ renumbered f k k'.
Proof. intros k Hk. destruct (Forall2_in_l _ _ _ _ _ _ K Hk) as (k' & Hk' & R). exists k'. split; [eapply Permutation_in; eauto|assumption]. Qed.
Lemma kid_from : forall k', In k' ks' -> exists k, In k ks /\ renumbered f k k'.
Proof. intros k' Hk. apply (Permutation_in _ (Permutation_sym P)) in Hk. destruct (Forall2_in_r _ _ _ _ _ _ K Hk) as (k & Hk' & R). eauto. Qed.
Lemma N' : NoDup (map nid ks').
Proof. eapply Permutation_NoDup; [apply Permutation_map; exact P|]. rewrite (ids2 _ _ K). apply nodup_f. assumption. Qed.
Lemma id_iff : forall n, In (f n) (map nid ks') <-> In n (map nid ks).
Proof.
  intro n. split; intro Hn.
  - apply kid_of in Hn. destruct Hn as (k' & Hk' & E). destruct (kid_from k' Hk') as (k & Hk & R). apply renumbered_inv in R. destruct R as [R _]. rewrite R in E. apply f_inj in E. subst. apply in_map. assumption.
  - apply kid_of in Hn. destruct Hn as (k & Hk & <-). destruct (kid_to k Hk) as (k' & Hk' & R). apply renumbered_inv in R. destruct R as [<- _]. apply in_map. assumption.
Qed.
Lemma id_img : forall m, In m (map nid ks') -> exists n, In n (map nid ks) /\ m = f n.
Proof.
  intros m Hm. apply kid_of in Hm. destruct Hm as (k' & Hk' & <-). destruct (kid_from k' Hk') as (k & Hk & R). apply renumbered_inv in R. exists (nid k). split; [apply in_map; assumption|tauto].
Qed.
Lemma preds_iff : forall n p, In n (map nid ks) -> (In (f p) (region_preds ks' (f n)) <-> In p (region_preds ks n)).
Proof.
  intros n p Hn. apply kid_of in Hn. destruct Hn as (k & Hk & <-). destruct (kid_to k Hk) as (k' & Hk' & R). apply renumbered_inv in R. destruct R as (<- & _ & L & _).
  rewrite (preds_kid Op ks k p N Hk), (preds_kid Op ks' k' (f p) N' Hk'), id_iff. split; intros [A (ls & q & B1 & B2)]; (split; [assumption|]).
  - destruct (Forall2_in_r _ _ _ _ _ _ L B1) as (a & Ha & Pa). apply (Permutation_in _ (Permutation_sym Pa)) in B2. apply in_map_iff in B2. destruct B2 as ([x y] & E & B2). injection E as Ex <-. simpl in Ex. apply f_inj in Ex. subst x. eauto.
  - destruct (Forall2_in_l _ _ _ _ _ _ L B1) as (b & Hb & Pb). exists b, q. split; [assumption|]. apply (Permutation_in _ Pb). apply in_map_iff. exists (p, q). auto.
Qed.
Lemma ground_iff : forall n, grounded (map nid ks') (region_preds ks') (f n) <-> grounded (map nid ks) (region_preds ks) n.
Proof.
  intro n. split.
  - intro G. remember (f n) as m eqn:E. revert n E. induction G as [m Hm Hp IH]. intros n ->. assert (Hn : In n (map nid ks)) by (apply id_iff; assumption). constructor; [assumption|]. intros p Pp. apply (IH (f p)); [|reflexivity]. apply preds_iff; assumption.
  - intro G. induction G as [n Hn Hp IH]. constructor; [apply id_iff; assumption|]. intros m Pm. assert (Hm : In m (map nid ks')) by (eapply preds_in_region; eauto). destruct (id_img m Hm) as (p & _ & ->). apply IH. apply preds_iff; assumption.
Qed.
Lemma hash_node_f : forall st st' k k' h, (forall x, st' (f x) = st x) -> In k ks -> renumbered f k k' -> (hash_node (inner1 k) k st = Ok h <-> hash_node (inner2 k') k' st' = Ok h).
Proof.
  intros st st' k k' h E Hk R. pose proof (inn k k') as I. pose proof R as R'. apply renumbered_inv in R'. destruct R' as (_ & Eo & L & x & Kx & _ & Px). unfold HashModel.hash_node. rewrite Eo, (hash_inputs_f st st' E _ _ L).
  assert (Z : kids k = [] <-> kids k' = []). { split; intro Q; rewrite Q in *; [inversion Kx; subst; apply Permutation_nil; assumption|apply Permutation_sym, Permutation_nil in Px; subst; inversion Kx; reflexivity]. }
  destruct (kids k) as [|c c0], (kids k') as [|d d0]; [tauto|destruct Z as [Z _]; discriminate (Z eq_refl)|destruct Z as [_ Z]; discriminate (Z eq_refl)|].
  destruct (inner1 k) as [h1| | |] eqn:I1.
  - rewrite (proj1 (I h1 Hk R) eq_refl). tauto.
  - destruct (inner2 k') as [h2| | |]; [specialize (I h2 Hk R); destruct I as [_ I]; discriminate (I eq_refl)| | |]; split; discriminate.
  - destruct (inner2 k') as [h2| | |]; [specialize (I h2 Hk R); destruct I as [_ I]; discriminate (I eq_refl)| | |]; split; discriminate.
  - destruct (inner2 k') as [h2| | |]; [specialize (I h2 Hk R); destruct I as [_ I]; discriminate (I eq_refl)| | |]; split; discriminate.
Qed.
Lemma region_f : forall h, region_val inner1 ks h <-> region_val inner2 ks' h.
Proof.
  intro h. split.
  - intros (st & i & out & r & Ek & Eo & S1 & S2).
    set (st' := fun m => match find (fun n => Nat.eqb (f n) m) (map nid ks) with Some n => st n | None => None end).
    assert (E : forall x, st' (f x) = st x).
    { intro x. unfold st'. destruct (find _ _) as [n|] eqn:F.
      - apply find_some in F. destruct F as [_ F]. apply Nat.eqb_eq, f_inj in F. subst. reflexivity.
      - symmetry. apply S1. intro G. destruct G as [x Hx _]. apply (find_none _ _ F) in Hx. rewrite Nat.eqb_refl in Hx. discriminate. }
    destruct (heads_to ks ks2 ks' K E2 i out r Ek) as (i2 & o2 & r' & Ek' & Ro).
    exists st', i2, o2, r'. split; [assumption|]. split; [apply renumbered_inv in Ro; destruct Ro as [-> _]; rewrite E; assumption|]. split.
    + intros m Gm. unfold st'. destruct (find _ _) as [n|] eqn:F; [|reflexivity]. apply find_some in F. destruct F as [Hn F]. apply Nat.eqb_eq in F. subst m. apply S1. rewrite <- ground_iff. assumption.
    + intros k' Hk' Gk'. destruct (kid_from k' Hk') as (k & Hk & R). pose proof R as R'. apply renumbered_inv in R'. destruct R' as [Ei _]. rewrite Ei in *. apply -> ground_iff in Gk'.
      destruct (S2 k Hk Gk') as (h1 & A & B). exists h1. rewrite E. split; [|assumption]. apply (hash_node_f st st' k k' h1 E Hk R). assumption.
  - intros (st' & i2 & o2 & r' & Ek & Eo & S1 & S2). destruct (heads_from ks ks2 ks' K E2 i2 o2 r' Ek) as (i & out & r & Ek' & Ro).
    set (st := fun x => st' (f x)). exists st, i, out, r. split; [assumption|]. split; [apply renumbered_inv in Ro; destruct Ro as [Ro _]; unfold st; rewrite <- Ro; assumption|]. split.
    + intros n Gn. apply S1. rewrite ground_iff. assumption.
    + intros k Hk Gk. destruct (kid_to k Hk) as (k' & Hk' & R). pose proof R as R'. apply renumbered_inv in R'. destruct R' as [Ei _]. assert (Gk' : grounded (map nid ks') (region_preds ks') (nid k')) by (rewrite Ei; apply ground_iff; assumption).
      destruct (S2 k' Hk' Gk') as (h1 & A & B). exists h1. split; [|unfold st; rewrite <- Ei; assumption]. apply (hash_node_f st st' k k' h1 (fun x => eq_refl) Hk R). assumption.
Qed.
End Region.
Theorem renumber_ok : forall walk1 walk2, good_walk walk1 -> good_walk walk2 -> forall n n', well_numbered n -> renumbered f n n' ->
  forall h, circuit_hash walk1 n = Ok h <-> circuit_hash walk2 n' = Ok h.
Proof.
  intros walk1 walk2 W1 W2. induction n as [i o l ks IH] using node_ind'. intros n' W R h. pose proof (renumbered_wn _ _ R W) as W'. inversion R as [? ? ? ? ls' ks2 ks' L K E P]; subst. rewrite !circuit_hash_unfold. destruct (is_dfg o); [|split; discriminate].
  inversion W as [? ? ? ? N F]; subst. inversion W' as [? ? ? ? N2 F2]; subst. rewrite !region_iff by assumption. apply (region_f ks ks2 ks'); try assumption.
  intros k k' h' Hk Rk. rewrite Forall_forall in IH, F. apply (IH k Hk k' (F k Hk) Rk).
Qed.
End Renumber.

(** ** When there is a hash *)
Theorem hashable_iff : forall walk, good_walk walk -> forall n, well_numbered n -> ((exists h, circuit_hash walk n = Ok h) <-> hashable is_dfg n).
Proof.
  intros walk W. induction n as [i o l ks IH] using node_ind'. intro Wn. inversion Wn as [? ? ? ? N F]; subst. rewrite Forall_forall in IH, F. split.
  - intros (h & E). rewrite circuit_hash_unfold in E. destruct (is_dfg o) eqn:D; [|discriminate]. apply region_iff in E; [|assumption|assumption]. destruct E as (st & a & out & r & -> & Eo & S1 & S2).
    constructor; [assumption| |].
    + destruct (W _ N) as (wl & _ & Wl). destruct (in_dec Nat.eq_dec (nid out) wl) as [I|I]; [apply (walk_iff _ _ _ Wl); assumption|]. rewrite S1 in Eo; [discriminate|]. rewrite <- (walk_iff _ _ _ Wl). assumption.
    + intros k Hk Gk Kk. apply (IH k Hk (F k Hk)). destruct (S2 k Hk Gk) as (h1 & A & _). unfold HashModel.hash_node in A. destruct (kids k); [congruence|]. destruct (circuit_hash walk k) as [h2| | |]; try discriminate. eexists; reflexivity.
  - intro Hh. inversion Hh as [? ? ? a out r D G K]; subst. rewrite circuit_hash_unfold, D. unfold region_hash. destruct (W _ N) as (wl & -> & Wl). pose proof (loop_ok Op H mix lhash xor zero (a :: out :: r) (circuit_hash walk) N wl [] (fun _ => None)) as L. simpl in L. specialize (L (proj1 Wl)).
    assert (S0 : solved Op H mix lhash xor zero (a :: out :: r) (circuit_hash walk) (fun _ : nat => @None H) []) by (split; [reflexivity|intros k _ []]). specialize (L S0). unfold inners in L. simpl in L. simpl.
    destruct (hash_loop _ _ _ _ _ _ _ wl _) as [st|e].
    + destruct L as [_ L2]. destruct (L2 out) as (h1 & _ & ->); [right; left; reflexivity|apply (walk_iff _ _ _ Wl); assumption|]. eexists; reflexivity.
    + exfalso. destruct L as (L1 & k & Hk & Lk & Kk & Ek). destruct (proj2 (IH k Hk (F k Hk))) as (h1 & A); [apply K; [assumption|apply (walk_iff _ _ _ Wl); assumption|assumption]|]. rewrite A in Ek. subst e. eapply L1. reflexivity.
Qed.

(** ** Equal hashes *)
Section Ideal.
Hypothesis mix_inj : forall a b, mix a = mix b -> a = b.
Hypothesis lhash_inj : forall a p q a' p' q', lhash a p q = lhash a' p' q' -> a = a' /\ p = p' /\ q = q'.
Hypothesis xor_zero : forall a, xor a zero = a.

Lemma inputs_same : forall st st' ls ls' p, Forall (fun l => length l = 1) ls -> Forall (fun l => length l = 1) ls' -> hash_inputs st p ls = hash_inputs st' p ls' ->
  Forall2 (Forall2 (fun l l' => snd l = snd l' /\ st (fst l) = st' (fst l'))) ls ls'.
Proof.
  intros st st'. induction ls as [|l ls IH]; intros [|l' ls'] p F F' E; try discriminate; [constructor|]. simpl in E. inversion F as [|? ? L1 F1]; subst. inversion F' as [|? ? L2 F2]; subst. injection E as E1 E2'. constructor; [|eapply IH; eauto].
  destruct l as [|x [|y l]]; try discriminate L1. destruct l' as [|x' [|y' l']]; try discriminate L2. constructor; [|constructor]. unfold HashModel.hash_input in E1. simpl in E1. rewrite !xor_zero in E1. apply lhash_inj in E1. tauto.
Qed.
Theorem faithful : forall walk, good_walk walk -> forall n n' h, well_numbered n -> well_numbered n' -> single_links n -> single_links n' ->
  circuit_hash walk n = Ok h -> circuit_hash walk n' = Ok h -> same_region (kids n) (kids n').
Proof.
  intros walk W. induction n as [i o l ks IH] using node_ind'. intros [i' o' l' ks'] h Wn Wn' SL SL' E E'. inversion Wn as [? ? ? ? N F]; subst. inversion Wn' as [? ? ? ? N' F']; subst. inversion SL as [? ? ? ? _ SF]; subst. inversion SL' as [? ? ? ? _ SF']; subst.
  rewrite Forall_forall in IH, F, F', SF, SF'. rewrite circuit_hash_unfold in E, E'. destruct (is_dfg o); [|discriminate]. destruct (is_dfg o'); [|discriminate]. apply region_iff in E; [|assumption|assumption]. apply region_iff in E'; [|assumption|assumption].
  destruct E as (st & a & out & r & -> & Eo & S1 & S2). destruct E' as (st' & a' & out' & r' & -> & Eo' & S1' & S2'). simpl. constructor.
  set (R := a :: out :: r) in *. set (R' := a' :: out' :: r') in *. 
  assert (Def : forall (ks : list node) (st : nat -> option H), (forall n, ~ grounded (map nid ks) (region_preds ks) n -> st n = None) -> NoDup (map nid ks) -> forall n (h0 : H), st n = Some h0 -> grounded (map nid ks) (region_preds ks) n).
  { intros ks0 st0 S0 N0 n h0 En. destruct (W _ N0) as (wl & _ & Wl). destruct (in_dec Nat.eq_dec n wl) as [I|I]; [apply (walk_iff _ _ _ Wl); assumption|]. rewrite S0 in En; [discriminate|]. rewrite <- (walk_iff _ _ _ Wl). assumption. }
  assert (M : forall n, grounded (map nid R) (region_preds R) n -> forall n' h0, st n = Some h0 -> st' n' = Some h0 -> same_dag R n R' n').
  { intros n G. induction G as [n Hn Hp IHg]. intros n' h0 E E'. pose proof (Def _ _ S1' N' _ _ E') as G'. assert (Hn' : In n' (map nid R')) by (destruct G'; assumption).
    apply kid_of in Hn. destruct Hn as (k & Hk & <-). apply kid_of in Hn'. destruct Hn' as (k' & Hk' & <-).
    destruct (S2 k Hk (Grounded _ _ _ (in_map _ _ _ Hk) Hp)) as (h1 & A & B). destruct (S2' k' Hk' G') as (h2 & A' & B'). assert (h1 = h0) by congruence. assert (h2 = h0) by congruence. subst h1 h2.
    assert (Q : nop k = nop k' /\ hash_inputs st 0 (links k) = hash_inputs st' 0 (links k') /\ (kids k = [] /\ kids k' = [] \/ kids k <> [] /\ kids k' <> [] /\ exists h3, circuit_hash walk k = Ok h3 /\ circuit_hash walk k' = Ok h3)).
    { unfold HashModel.hash_node in A, A'. destruct (kids k) as [|c0 c1], (kids k') as [|d0 d1].
      - assert (Z : mix (inr (nop k) :: hash_inputs st 0 (links k)) = mix (inr (nop k') :: hash_inputs st' 0 (links k'))) by congruence. apply mix_inj in Z. injection Z as Z1 Z2. auto.
      - destruct (circuit_hash walk k') as [h3| | |]; try discriminate A'. assert (Z : mix (inr (nop k) :: hash_inputs st 0 (links k)) = mix (inl h3 :: inr (nop k') :: hash_inputs st' 0 (links k'))) by congruence. apply mix_inj in Z. discriminate.
      - destruct (circuit_hash walk k) as [h3| | |]; try discriminate A. assert (Z : mix (inr (nop k') :: hash_inputs st' 0 (links k')) = mix (inl h3 :: inr (nop k) :: hash_inputs st 0 (links k))) by congruence. apply mix_inj in Z. discriminate.
      - destruct (circuit_hash walk k) as [h3| | |] eqn:C1; try discriminate A. destruct (circuit_hash walk k') as [h4| | |] eqn:C2; try discriminate A'.
        assert (Z : mix (inl h3 :: inr (nop k) :: hash_inputs st 0 (links k)) = mix (inl h4 :: inr (nop k') :: hash_inputs st' 0 (links k'))) by congruence. apply mix_inj in Z. injection Z as Z0 Z1 Z2. subst h4. split; [assumption|]. split; [assumption|]. right. split; [discriminate|]. split; [discriminate|]. exists h3. auto. }
    destruct Q as (Q1 & Q2 & Q3).
    assert (SLk : Forall (fun l => length l = 1) (links k)) by (pose proof (SF k Hk) as Z; inversion Z; subst; assumption). assert (SLk' : Forall (fun l => length l = 1) (links k')) by (pose proof (SF' k' Hk') as Z; inversion Z; subst; assumption).
    pose proof (inputs_same st st' _ _ 0 SLk SLk' Q2) as I.
    constructor; [assumption|assumption|assumption| |].
    - assert (Pk : forall ls x, In ls (links k) -> In x ls -> In (fst x) (map nid R) -> In (fst x) (region_preds R (nid k))) by (intros ls x Hls Hx Ix; apply preds_kid; [assumption|assumption|]; split; [assumption|]; exists ls, (snd x); split; [assumption|]; destruct x; assumption).
      assert (Pk' : forall ls x, In ls (links k') -> In x ls -> In (fst x) (map nid R') -> In (fst x) (region_preds R' (nid k'))) by (intros ls x Hls Hx Ix; apply preds_kid; [assumption|assumption|]; split; [assumption|]; exists ls, (snd x); split; [assumption|]; destruct x; assumption).
      clear - IHg I Pk Pk' S1 S1' S2 S2' Def N N' G' Hp. revert Pk Pk'. induction I as [|la lb ls ls' Hl I IH]; intros Pk Pk'; constructor; [|apply IH; [intros ls0 x Hls; apply Pk; right; assumption|intros ls0 x Hls; apply Pk'; right; assumption]].
      assert (Px : forall x, In x la -> In (fst x) (map nid R) -> In (fst x) (region_preds R (nid k))) by (intros x Hx; apply (Pk la); [left; reflexivity|assumption]).
      assert (Px' : forall x, In x lb -> In (fst x) (map nid R') -> In (fst x) (region_preds R' (nid k'))) by (intros x Hx; apply (Pk' lb); [left; reflexivity|assumption]).
      clear - IHg Hl Px Px' S1 S1' S2 S2' Def N N' G' Hp. revert Px Px'. induction Hl as [|x y la lb [E1' E2'] Hl IH]; intros Px Px'; constructor; [|apply IH; [intros z Hz; apply Px; right; assumption|intros z Hz; apply Px'; right; assumption]].
      split; [assumption|]. specialize (Px x (or_introl eq_refl)). specialize (Px' y (or_introl eq_refl)).
      destruct (in_dec Nat.eq_dec (fst x) (map nid R)) as [Ix|Ix], (in_dec Nat.eq_dec (fst y) (map nid R')) as [Iy|Iy].
      + left. split; [assumption|]. split; [assumption|]. specialize (Px Ix). destruct (kid_of _ _ _ Ix) as (kx & Hkx & Ekx).
        assert (Gx : grounded (map nid R) (region_preds R) (nid kx)) by (rewrite Ekx; apply Hp; assumption). destruct (S2 kx Hkx Gx) as (h3 & _ & B3). rewrite Ekx in B3. apply (IHg _ Px (fst y) h3); [assumption|congruence].
      + exfalso. destruct (kid_of _ _ _ Ix) as (kx & Hkx & Ekx). assert (Gx : grounded (map nid R) (region_preds R) (nid kx)) by (rewrite Ekx; apply Hp; auto). destruct (S2 kx Hkx Gx) as (h3 & _ & B3). rewrite Ekx in B3.
        assert (Z : st' (fst y) = None) by (apply S1'; intro Q; destruct Q; contradiction). congruence.
      + exfalso. destruct (kid_of _ _ _ Iy) as (ky & Hky & Eky). assert (Gy : grounded (map nid R') (region_preds R') (nid ky)) by (rewrite Eky; destruct G' as [? ? Gp]; apply Gp; auto). destruct (S2' ky Hky Gy) as (h3 & _ & B3). rewrite Eky in B3.
        assert (Z : st (fst x) = None) by (apply S1; intro Q; destruct Q; contradiction). congruence.
      + right. auto.
    - destruct Q3 as [Q3|(_ & _ & h3 & C1 & C2)]; [left; assumption|]. right. apply (IH k Hk k' h3 (F k Hk) (F' k' Hk') (SF k Hk) (SF' k' Hk') C1 C2). }
  apply (M (nid out) (Def _ _ S1 N _ _ Eo) (nid out') h Eo Eo').
Qed.
End Ideal.
End Thm.
