(** The hash of a region does not depend on the order of the walk, nor on the node numbers. *)
From Coq Require Import List Bool Arith Lia Permutation.
From Verif Require Import TopoSpec TopoModel TopoProofs HashSpec HashModel.
Import ListNotations.

Section Nodes.
Variable Op : Type.
Notation node := (node Op).
Section Ind.
Variable P : node -> Prop.
Hypothesis step : forall i o l ks, Forall P ks -> P (Node i o l ks).
Fixpoint node_ind' (n : node) : P n :=
  match n with
  | Node i o l ks => step i o l ks ((fix go (ks : list node) : Forall P ks := match ks with [] => Forall_nil P | k :: ks => Forall_cons k (node_ind' k) (go ks) end) ks)
  end.
End Ind.
Lemma find_kid : forall (ks : list node) k, NoDup (map nid ks) -> In k ks -> find (fun x => Nat.eqb (nid x) (nid k)) ks = Some k.
Proof.
  induction ks as [|x ks IH]; intros k N H; [destruct H|]. simpl in *. inversion N as [|? ? Nx Nk]; subst. destruct H as [->|H]; [rewrite Nat.eqb_refl; reflexivity|].
  destruct (Nat.eqb_spec (nid x) (nid k)) as [E|]; [|auto]. exfalso. apply Nx. rewrite E. apply in_map. assumption.
Qed.
Lemma find_kid_inv : forall (ks : list node) n k, find (fun x => Nat.eqb (nid x) n) ks = Some k -> In k ks /\ nid k = n.
Proof. intros ks n k F. apply find_some in F. destruct F as [H E]. apply Nat.eqb_eq in E. auto. Qed.
Lemma kid_of : forall (ks : list node) n, In n (map nid ks) -> exists k, In k ks /\ nid k = n.
Proof. intros ks n H. apply in_map_iff in H. destruct H as (k & E & H). exists k. auto. Qed.
Lemma same_kid : forall (ks : list node) k k', NoDup (map nid ks) -> In k ks -> In k' ks -> nid k = nid k' -> k = k'.
Proof. intros ks k k' N H H' E. pose proof (find_kid ks k N H) as F. rewrite E, (find_kid ks k' N H') in F. congruence. Qed.
Lemma preds_kid : forall ks (k : node) p, NoDup (map nid ks) -> In k ks ->
  (In p (region_preds ks (nid k)) <-> In p (map nid ks) /\ exists ls q, In ls (links k) /\ In (p, q) ls).
Proof.
  intros ks k p N H. unfold region_preds. rewrite (find_kid ks k N H), filter_In, existsb_exists. split.
  - intros [A (x & B & E)]. apply Nat.eqb_eq in E. subst x. split; [assumption|]. apply in_map_iff in A. destruct A as ([p' q] & E & A). simpl in E. subst p'. apply in_concat in A. destruct A as (ls & A1 & A2). eauto.
  - intros [B (ls & q & A1 & A2)]. split; [|exists p; split; [assumption|apply Nat.eqb_refl]]. apply in_map_iff. exists (p, q). split; [reflexivity|]. apply in_concat. eauto.
Qed.
Lemma preds_in_region : forall (ks : list node) n p, In p (region_preds ks n) -> In p (map nid ks).
Proof.
  intros ks n p H. unfold region_preds in H. destruct (find _ ks); [|destruct H]. apply filter_In in H. destruct H as [_ H]. apply existsb_exists in H. destruct H as (x & Hx & E). apply Nat.eqb_eq in E. subst. assumption.
Qed.
(** petgraph's walk is one of the walks. *)
Lemma topo_walk_ok : forall ks : list node, NoDup (map nid ks) -> exists l, topo_walk Op ks = Some l /\ walk_of (map nid ks) (region_preds ks) l.
Proof.
  intros ks N. unfold topo_walk. apply topo_ok; [assumption| |].
  - intros n m Hn Hm. apply kid_of in Hm. destruct Hm as (k & Hk & <-). rewrite (preds_kid ks k n N Hk). unfold region_succs. rewrite in_flat_map. split.
    + intros (k' & Hk' & A). apply in_map_iff in A. destruct A as (x & E & A). apply filter_In in A. destruct A as [A B]. apply Nat.eqb_eq in B. subst x.
      assert (k' = k) by (apply (same_kid ks); assumption). subst k'. split; [assumption|]. apply in_map_iff in A. destruct A as ([p q] & E' & A). simpl in E'. subst p. apply in_concat in A. destruct A as (ls & A1 & A2). eauto.
    + intros (_ & ls & q & A1 & A2). exists k. split; [assumption|]. apply in_map_iff. exists n. split; [reflexivity|]. apply filter_In. split; [|apply Nat.eqb_refl]. apply in_map_iff. exists (n, q). split; [reflexivity|]. apply in_concat. eauto.
  - intros n m Hn Hm. unfold region_succs in Hm. apply in_flat_map in Hm. destruct Hm as (k & Hk & A). apply in_map_iff in A. destruct A as (x & <- & _). apply in_map. assumption.
Qed.
End Nodes.

Section Hash.
Variables (Op H : Type) (is_dfg : Op -> bool).
Variables (mix : list (H + Op) -> H) (lhash : option H -> nat -> nat -> H) (xor : H -> H -> H) (zero : H).
Notation node := (node Op).
Notation hash_input := (hash_input H lhash xor zero).
Notation hash_inputs := (hash_inputs Op H lhash xor zero).
Notation hash_node := (hash_node Op H mix lhash xor zero).
Notation hash_loop := (hash_loop Op H mix lhash xor zero).

Lemma hash_input_ext : forall st st' p ls, (forall l, In l ls -> st (fst l) = st' (fst l)) -> hash_input st p ls = hash_input st' p ls.
Proof.
  intros st st' p ls E. unfold HashModel.hash_input. generalize zero. induction ls as [|l ls IH]; intro z; [reflexivity|]. simpl. rewrite (E l (or_introl eq_refl)). apply IH. intros x Hx. apply E. right. assumption.
Qed.
Lemma hash_inputs_ext : forall st st' ls p, (forall l x, In l ls -> In x l -> st (fst x) = st' (fst x)) -> hash_inputs st p ls = hash_inputs st' p ls.
Proof.
  intros st st'. induction ls as [|l ls IH]; intros p E; [reflexivity|]. simpl. rewrite (hash_input_ext st st' p l) by (intros x Hx; apply (E l x); [left; reflexivity|assumption]).
  rewrite (IH (S p)); [reflexivity|]. intros l' x Hl. apply E. right. assumption.
Qed.
Lemma hash_node_ext : forall i n st st', (forall l x, In l (links n) -> In x l -> st (fst x) = st' (fst x)) -> hash_node i n st = hash_node i n st'.
Proof. intros i n st st' E. unfold HashModel.hash_node. rewrite (hash_inputs_ext st st' (links n) 0 E). reflexivity. Qed.

Section Region.
Variables (ks : list node) (inner : node -> res H).
Hypothesis N : NoDup (map nid ks).
Definition inners : list (node * res H) := map (fun k => (k, inner k)) ks.
Lemma find_inner : forall k, In k ks -> find (fun x => Nat.eqb (nid (fst x)) (nid k)) inners = Some (k, inner k).
Proof.
  intros k Hk. pose proof (find_kid Op ks k N Hk) as F. unfold inners. clear N Hk. induction ks as [|x l IH]; [discriminate|]. simpl in *. destruct (Nat.eqb (nid x) (nid k)); [congruence|auto].
Qed.
(** [st] gives each visited node its hash, and none to the others. *)
Definition solved (st : nat -> option H) (l : list nat) : Prop :=
  (forall n, ~ In n l -> st n = None) /\
  (forall k, In k ks -> In (nid k) l -> exists h, hash_node (inner k) k st = Ok h /\ st (nid k) = Some h).
Lemma loop_ok : forall l l0 st, visits_in_order (map nid ks) (region_preds ks) (l0 ++ l) -> solved st l0 ->
  match hash_loop inners l st with
  | inl st' => solved st' (l0 ++ l)
  | inr e => (forall h, e <> Ok h) /\ exists k, In k ks /\ In (nid k) l /\ kids k <> [] /\ inner k = e
  end.
Proof.
  induction l as [|n l IH]; intros l0 st V S0; simpl.
  - rewrite app_nil_r. assumption.
  - destruct V as (V1 & V2 & V3). assert (Hn : In n (map nid ks)) by (apply V2; apply in_or_app; right; left; reflexivity). apply kid_of in Hn. destruct Hn as (k & Hk & <-).
    rewrite (find_inner k Hk). destruct S0 as [S1 S2].
    assert (Nn : ~ In (nid k) l0). { intro K. apply NoDup_remove_2 in V1. apply V1. apply in_or_app. left. assumption. }
    assert (Q : (exists h, hash_node (inner k) k st = Ok h) \/ (forall h, hash_node (inner k) k st <> Ok h) /\ kids k <> [] /\ inner k = hash_node (inner k) k st).
    { unfold HashModel.hash_node. destruct (kids k); [left; eexists; reflexivity|]. destruct (inner k); [left; eexists; reflexivity| | |]; right; (split; [congruence|split; [discriminate|reflexivity]]). }
    destruct Q as [(h & E)|(E & K & Ei)].
    + rewrite E, (S1 _ Nn). replace (l0 ++ nid k :: l) with ((l0 ++ [nid k]) ++ l) by (rewrite <- app_assoc; reflexivity).
      assert (Pk : incl (region_preds ks (nid k)) l0) by (apply (V3 l0 (nid k) l); reflexivity).
      assert (S' : solved (set_hash H st (nid k) h) (l0 ++ [nid k])).
      { assert (EE : forall x, In x ks -> In (nid x) (l0 ++ [nid k]) -> hash_node (inner x) x (set_hash H st (nid k) h) = hash_node (inner x) x st).
        { intros x Hx Lx. apply hash_node_ext. intros ls y Hls Hy. unfold set_hash. destruct (Nat.eqb_spec (fst y) (nid k)) as [Ey|]; [|reflexivity]. exfalso.
          assert (Py : In (nid k) (region_preds ks (nid x))). { apply preds_kid; [assumption|assumption|]. split; [apply in_map; assumption|]. exists ls, (snd y). split; [assumption|]. rewrite <- Ey. destruct y. assumption. }
          apply in_app_or in Lx. destruct Lx as [Lx|[Lx|[]]]; [|apply Nn, Pk; rewrite <- Lx in Py; exact Py].
          apply in_split in Lx. destruct Lx as (a & b & Eab). assert (In (nid k) a). { apply (V3 a (nid x) (b ++ nid k :: l)); [rewrite Eab, <- app_assoc; reflexivity|assumption]. }
          apply Nn. rewrite Eab. apply in_or_app. left. assumption. }
        split.
        - intros m Hm. unfold set_hash. destruct (Nat.eqb_spec m (nid k)) as [->|]; [exfalso; apply Hm, in_or_app; right; left; reflexivity|]. apply S1. intro. apply Hm, in_or_app. left. assumption.
        - intros x Hx Lx. rewrite (EE x Hx Lx). unfold set_hash. destruct (Nat.eqb_spec (nid x) (nid k)) as [Ex|D].
          + assert (x = k) by (apply (same_kid Op ks); assumption). subst x. exists h. auto.
          + apply S2; [assumption|]. apply in_app_or in Lx. destruct Lx as [Lx|[Lx|[]]]; [assumption|congruence]. }
      assert (V' : visits_in_order (map nid ks) (region_preds ks) ((l0 ++ [nid k]) ++ l)) by (rewrite <- app_assoc; repeat split; assumption).
      specialize (IH (l0 ++ [nid k]) (set_hash H st (nid k) h) V' S'). destruct (hash_loop inners l (set_hash H st (nid k) h)); [assumption|].
      destruct IH as [IH1 (x & Hx & Lx & Kx)]. split; [assumption|]. exists x. split; [assumption|]. split; [right; assumption|assumption].
    + destruct (hash_node (inner k) k st) eqn:Eh; [exfalso; eapply E; reflexivity| | |]; (split; [congruence|]; exists k; split; [assumption|]; split; [left; reflexivity|]; split; assumption).
Qed.
End Region.

(** The result of a region in terms of a solution. *)
Definition region_hash (walk : list node -> option (list nat)) (inner : node -> res H) (ks : list node) : res H :=
  match ks with
  | _ :: out :: _ =>
      match walk ks with
      | None => Panic
      | Some order =>
          match hash_loop (map (fun k => (k, inner k)) ks) order (fun _ => None) with
          | inr e => e
          | inl st => match st (nid out) with Some h => Ok h | None => CyclicCircuit end
          end
      end
  | _ => NotADfg
  end.
Definition good_walk (walk : list node -> option (list nat)) : Prop :=
  forall ks, NoDup (map nid ks) -> exists l, walk ks = Some l /\ walk_of (map nid ks) (region_preds ks) l.
(** [Ok h] iff there is a solution on the grounded nodes, and it gives the output [h]. *)
Definition region_val (inner : node -> res H) (ks : list node) (h : H) : Prop :=
  exists st i out r, ks = i :: out :: r /\ st (nid out) = Some h /\
    (forall n, ~ grounded (map nid ks) (region_preds ks) n -> st n = None) /\
    (forall k, In k ks -> grounded (map nid ks) (region_preds ks) (nid k) -> exists h, hash_node (inner k) k st = Ok h /\ st (nid k) = Some h).
Lemma region_iff : forall walk inner ks h, good_walk walk -> NoDup (map nid ks) -> (region_hash walk inner ks = Ok h <-> region_val inner ks h).
Proof.
  intros walk inner ks h W N. unfold region_hash. destruct (W ks N) as (l & El & Wl).
  pose proof (loop_ok ks inner N l [] (fun _ => None)) as L. simpl in L. specialize (L (proj1 Wl)).
  assert (S0 : solved ks inner (fun _ : nat => @None H) []) by (split; [reflexivity|intros k _ []]). specialize (L S0).
  pose proof (walk_iff _ _ _ Wl) as G. split.
  - destruct ks as [|i [|out r]]; try discriminate. rewrite El. unfold inners in L. destruct (hash_loop _ l _) as [st|e] eqn:E.
    + destruct (st (nid out)) as [h'|] eqn:Eo; [|discriminate]. intro Q. injection Q as ->. exists st, i, out, r. split; [reflexivity|]. split; [assumption|]. destruct L as [L1 L2].
      split; [intros n Hn; apply L1; rewrite G; assumption|]. intros k Hk Gk. apply L2; [assumption|apply G; assumption].
    + intro Q. subst e. destruct L as [L _]. exfalso. eapply L. reflexivity.
  - intros (st & i & out & r & -> & Eo & S1 & S2). rewrite El. unfold inners in L. destruct (hash_loop _ l _) as [st'|e] eqn:E.
    + assert (Q : forall n, grounded (map nid (i :: out :: r)) (region_preds (i :: out :: r)) n -> st' n = st n).
      { intros n Gn. induction Gn as [n Hn Hp IH]. destruct (kid_of _ _ _ Hn) as (k & Hk & <-). assert (Gk : grounded (map nid (i :: out :: r)) (region_preds (i :: out :: r)) (nid k)) by (constructor; assumption).
        destruct (S2 k Hk Gk) as (h1 & A1 & B1). destruct L as [L1 L2]. destruct (L2 k Hk (proj2 (G _) Gk)) as (h2 & A2 & B2). rewrite B1, B2. f_equal.
        rewrite (hash_node_ext (inner k) k st' st) in A2; [congruence|]. intros ls x Hls Hx.
        destruct (in_dec Nat.eq_dec (fst x) (map nid (i :: out :: r))) as [I|I].
        - apply IH. apply preds_kid; [assumption|assumption|]. split; [assumption|]. exists ls, (snd x). split; [assumption|]. destruct x. assumption.
        - assert (NG : ~ grounded (map nid (i :: out :: r)) (region_preds (i :: out :: r)) (fst x)) by (intro K; destruct K; contradiction). rewrite S1 by assumption. apply L1. rewrite G. assumption. }
      assert (Go : st' (nid out) = st (nid out)).
      { apply Q. destruct (in_dec Nat.eq_dec (nid out) l) as [I|I]; [apply G; assumption|]. exfalso. assert (st (nid out) = None) by (apply S1; rewrite <- G; assumption). congruence. }
      rewrite Go, Eo. reflexivity.
    + destruct L as (L1 & k & Hk & Lk & Kk & Ek). exfalso. destruct (S2 k Hk (proj1 (G _) Lk)) as (h1 & A1 & _). unfold HashModel.hash_node in A1. destruct (kids k) as [|x y]; [congruence|]. rewrite Ek in A1. destruct e; try discriminate. eapply L1; reflexivity.
Qed.

Lemma circuit_hash_unfold : forall walk i op ls ks, circuit_hash Op H is_dfg mix lhash xor zero walk (Node i op ls ks) =
  if is_dfg op then region_hash walk (circuit_hash Op H is_dfg mix lhash xor zero walk) ks else NotADfg.
Proof. reflexivity. Qed.
End Hash.
