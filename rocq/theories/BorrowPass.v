(** The traversal of arrays and of a whole region. *)
From Coq Require Import List Bool Arith Lia Permutation.
From Verif Require Import BorrowSpec BorrowModel BorrowGraph BorrowSol BorrowElide BorrowScan.
Import ListNotations.

Section Pass.
Variables (O T : Type) (T_eqb : T -> T -> bool) (is_array : T -> bool) (elem : T -> T) (ty : wire -> T).
Hypothesis T_refl : forall t, T_eqb t t = true.
Variable order : entries -> entries.
Hypothesis order_perm : forall l, Permutation (order l) l.
Notation graph := (graph O).
Notation node := (node O).
Notation wfg := (wfg O T is_array elem ty).
Notation chain := (chain O).
Notation link := (link O).
Notation elided := (elided O).
Notation same_all := (same_all O).

(** ** Walking along an array *)
(** Where the walk ends, and the candidates it gives. *)
Definition stops (g : graph) (w : wire) (c : list wire) : Prop :=
  exists m p, In m g /\ nth_error (ins m) p = Some w /\
    ((is_br (knd m) = false /\ c = all_outs O m) \/ (is_br (knd m) = true /\ p = 0 /\ c = all_outs O m) \/ (knd m = KReturn /\ p = 2 /\ c = [])).
Lemma rank_lt : forall (g : graph) n, In n (map nid g) -> rank O g n < length g.
Proof. intros g n H. pose proof (rank_app_in O g [] n H) as R. rewrite app_nil_r in R. exact R. Qed.
Lemma next_ok : forall g aty w, wfg g -> produced g w -> is_array (ty w) = true -> ty w = aty ->
  (exists op, next_array_op O T T_eqb ty g aty w = Some (Next op) /\ link g w op) \/ (exists c, next_array_op O T T_eqb ty g aty w = Some (Stop c) /\ stops g w c).
Proof.
  intros g aty w W P A E. pose proof W as [Tp [T1 T2]]. pose proof (T1 w P A) as U. destruct (single_linked_one O g w U) as ([n p] & L & S1). unfold next_array_op. rewrite S1.
  destruct (single_linked_spec O g w n p S1) as (_ & m & Hm & En & Hp). assert (N : NoDup (map nid g)) by apply Tp. rewrite <- En, (In_find_node O g m N Hm).
  pose proof (T2 m Hm) as Q. destruct (knd m) eqn:K.
  - destruct Q as (a & ix & Ei & Qa & Qi & Q0 & _). rewrite Ei in Hp. destruct p as [|[|p]]; simpl in Hp; [|injection Hp as ->; congruence|destruct p; discriminate]. injection Hp as ->. simpl.
    rewrite Q0, E, T_refl. simpl. unfold find_const, single_linked_output. rewrite (In_find_node O g m N Hm), Ei. cbn [nth_error].
    apply topological_ranked in Tp. destruct Tp as [_ R]. destruct (R m ix Hm) as [(c & Hc & Ec & _) _]; [rewrite Ei; simpl; auto|]. rewrite <- Ec, (In_find_node O g c N Hc). destruct c as [cn ck ci]. simpl in *.
    destruct ck as [| |i|o k]; try (right; eexists; split; [reflexivity|]; exists m, 0; rewrite Ei, K; split; [assumption|]; split; [reflexivity|]; right; left; auto; fail).
    left. eexists. split; [reflexivity|]. exists m, ix, []. unfold onode, oact, oidx. simpl. repeat (split; [assumption|]). split; [reflexivity|]. split; [assumption|]. split; [assumption|].
    exists {| nid := cn; knd := KConst i; ins := ci |}. auto.
  - destruct Q as (a & ix & v & Ei & Qa & Qi & Q0 & _). rewrite Ei in Hp. destruct p as [|[|[|p]]]; simpl in Hp; [|injection Hp as ->; congruence| |destruct p; discriminate].
    + injection Hp as ->. simpl. rewrite Q0, E, T_refl. simpl. unfold find_const, single_linked_output. rewrite (In_find_node O g m N Hm), Ei. cbn [nth_error].
      apply topological_ranked in Tp. destruct Tp as [_ R]. destruct (R m ix Hm) as [(c & Hc & Ec & _) _]; [rewrite Ei; simpl; auto|]. rewrite <- Ec, (In_find_node O g c N Hc). destruct c as [cn ck ci]. simpl in *.
      destruct ck as [| |i|o k]; try (right; eexists; split; [reflexivity|]; exists m, 0; rewrite Ei, K; split; [assumption|]; split; [reflexivity|]; right; left; auto; fail).
      left. eexists. split; [reflexivity|]. exists m, ix, [v]. unfold onode, oact, oidx. simpl. repeat (split; [assumption|]). split; [reflexivity|]. split; [assumption|]. split; [assumption|].
      exists {| nid := cn; knd := KConst i; ins := ci |}. auto.
    + injection Hp as ->. simpl. right. eexists. split; [reflexivity|]. exists m, 2. rewrite Ei. split; [assumption|]. split; [reflexivity|]. right. right. auto.
  - destruct Q as [Ei _]. rewrite Ei in Hp. destruct p; discriminate.
  - right. eexists. split; [reflexivity|]. exists m, p. rewrite K. split; [assumption|]. split; [assumption|]. left. auto.
Qed.
Lemma link_prod : forall g w op, wfg g -> link g w op -> produced g (onode op, 0) /\ is_array (ty (onode op, 0)) = true /\ ty (onode op, 0) = ty w.
Proof.
  intros g w op W L. destruct (link_typed O T is_array elem ty g w op W L) as (A & E & _). split; [|split; [congruence|assumption]].
  destruct L as (m & _ & _ & Hm & En & Ek & _). exists m. split; [assumption|]. split; [assumption|]. rewrite Ek. destruct (oact op); simpl; lia.
Qed.
Lemma walk_ok : forall fuel g aty w, wfg g -> produced g w -> is_array (ty w) = true -> ty w = aty -> length g - rank O g (fst w) < fuel ->
  exists ops c, walk O T T_eqb ty fuel g aty w = Some (ops, c) /\ chain g w ops /\ stops g (cend w ops) c.
Proof.
  induction fuel as [|fuel IH]; intros g aty w W P A E L; [lia|]. cbn [walk]. destruct (next_ok g aty w W P A E) as [(op & -> & Lk)|(c & -> & St)].
  - destruct (link_prod g w op W Lk) as (P1 & A1 & E1'). destruct (link_typed O T is_array elem ty g w op W Lk) as (_ & _ & _ & _ & R).
    assert (Rl : rank O g (onode op) < length g) by (apply rank_lt; destruct P1 as (m & Hm & Em & _); simpl in Em; rewrite <- Em; apply in_map, Hm).
    destruct (IH g aty (onode op, 0) W P1 A1) as (ops & c & Ew & C & St); [congruence|simpl; lia|]. destruct op as [[n i] a]. unfold onode in Ew. simpl in Ew. rewrite Ew. exists ((n, i, a) :: ops), c. split; [reflexivity|]. split; [split; assumption|exact St].
  - exists [], c. split; [reflexivity|]. split; [exact I|exact St].
Qed.

(** ** The invariant of the traversals: [Vo] the operations met with a constant index, [Vs] those met
    with another index, [Sc] the wires started from, [Q] the candidates. *)
Definition br_at (g : graph) (n : nat) : Prop := exists m, In m g /\ nid m = n /\ is_br (knd m) = true.
Record Inv (g : graph) (Vo Vs : list nat) (Sc Q : list wire) : Prop := {
  I1 : forall m w rest, In m g -> In (nid m) (Vo ++ Vs) -> ins m = w :: rest -> In w Sc \/ exists k, In k Vo /\ w = (k, 0);
  I2 : forall w, In w Sc -> br_at g (fst w) -> (snd w = 0 -> In (fst w) Vs) /\ In (fst w) (Vo ++ Vs);
  I3 : forall n, In n Vo -> In n Vs -> False;
  I4 : forall w, In w Q -> produced g w /\ (br_at g (fst w) -> In (fst w) Vs);
  I5 : forall m, In m g -> In (nid m) (Vo ++ Vs) -> is_br (knd m) = true }.
Definition start_ok (g : graph) (Vo Vs : list nat) (Sc : list wire) (s : wire) : Prop :=
  produced g s /\ ~ In s Sc /\ (br_at g (fst s) -> In (fst s) Vs \/ (In (fst s) Vo /\ snd s = 1)).
Definition pot (pos : nat -> nat) (N : nat) (g : graph) : Prop :=
  (forall m w, In m g -> In w (ins m) -> pos (fst w) < pos (nid m)) /\ (forall m, In m g -> pos (nid m) < N).
Definition from (g g' : graph) : Prop := forall m', In m' g' -> exists m, In m g /\ nid m = nid m' /\ knd m = knd m'.

Lemma fresh_chain : forall g Vo Vs Sc Q, Inv g Vo Vs Sc Q -> forall ops w, chain g w ops -> ~ In w Sc -> (forall k, w = (k, 0) -> ~ In k Vo) ->
  (forall op, In op ops -> ~ In (onode op) (Vo ++ Vs)) /\ ~ In (cend w ops) Sc /\ (forall k, cend w ops = (k, 0) -> ~ In k Vo).
Proof.
  intros g Vo Vs Sc Q H. induction ops as [|op ops IH]; intros w C F1 F2; [split; [intros op []|split; assumption]|].
  destruct C as [(m & ix & rest & Hm & En & Ek & Ei & _) C].
  assert (F : ~ In (onode op) (Vo ++ Vs)).
  { intro K. rewrite <- En in K. destruct (I1 _ _ _ _ _ H m w _ Hm K Ei) as [X|(k & X1 & X2)]; [contradiction|]. exact (F2 k X2 X1). }
  destruct (IH (onode op, 0) C) as (G1 & G2 & G3).
  - intro K. apply F. apply (I2 _ _ _ _ _ H (onode op, 0) K). exists m. split; [assumption|]. split; [assumption|]. rewrite Ek. destruct (oact op); reflexivity.
  - intros k E K. apply F. injection E as ->. apply in_or_app. left. assumption.
  - split; [|split; assumption]. intros x [<-|Hx]; [assumption|apply G1, Hx].
Qed.
Lemma start_fresh : forall g Vo Vs Sc Q s, Inv g Vo Vs Sc Q -> start_ok g Vo Vs Sc s -> ~ In s Sc /\ (forall k, s = (k, 0) -> ~ In k Vo).
Proof.
  intros g Vo Vs Sc Q s H (P & N & B). split; [assumption|]. intros k -> K. destruct P as (m & Hm & Em & _). simpl in *.
  assert (Br : br_at g k) by (exists m; split; [assumption|]; split; [assumption|]; apply (I5 _ _ _ _ _ H m Hm); rewrite Em; apply in_or_app; auto).
  destruct (B Br) as [X|[_ X]]; [exact (I3 _ _ _ _ _ H k K X)|discriminate].
Qed.

(** An elision keeps the invariant. *)
Lemma sigma_cases : forall (a a2 v : wire) (r b : node) w, nid r <> nid b ->
  sigma O a a2 v r b w = if wire_dec w (nid b, 1) then v else if wire_dec w (nid b, 0) then sr O a r a2 else if wire_dec w (nid r, 0) then a else w.
Proof. intros a a2 v r b w N. unfold sigma, sr. destruct (wire_dec w (nid b, 1)); [reflexivity|]. destruct (wire_dec w (nid b, 0)); reflexivity. Qed.
Lemma elided_inv : forall g g' nr nb Vo Vs Sc Q V pos N, wfg g -> Inv g Vo Vs Sc Q -> pot pos N g -> elided g g' nr nb -> In nr V -> In nb V -> incl V Vo ->
  (forall n p, In n V -> ~ In (n, p) Sc) ->
  Inv g' Vo Vs Sc Q /\ pot pos N g' /\ from g g' /\ (forall m, In m g -> ~ In (nid m) V -> exists m', In m' g' /\ nid m' = nid m /\ knd m' = knd m).
Proof.
  intros g g' nr nb Vo Vs Sc Q V pos N W H [P1 P2] E Vr Vb HV NS.
  destruct E as (a & a2 & v & ixr & ixb & r & b & <- & <- & Hr & Hb & Kr & Kb & Ir & Ib & D1 & D2 & D3 & D4 & -> & Ka & Ka2 & Pos). specialize (Pos pos P1).
  assert (IR : forall m, In m (result O g a a2 v r b) <-> exists m0, In m0 g /\ keep O r b (nid m0) = true /\ m = with_ins O m0 (map (sigma O a a2 v r b) (ins m0))).
  { intro m. unfold result. rewrite in_map_iff. split; [intros (x & <- & X); apply filter_In in X; exists x; tauto|intros (x & X1 & X2 & ->); exists x; split; [reflexivity|apply filter_In; auto]]. }
  assert (KN : forall n, keep O r b n = true <-> n <> nid r /\ n <> nid b) by (intro n; unfold keep; rewrite andb_true_iff, !negb_true_iff, !Nat.eqb_neq; tauto).
  assert (Fr : from g (result O g a a2 v r b)) by (intros m Hm; apply IR in Hm; destruct Hm as (x & Hx & _ & ->); exists x; auto).
  assert (Br : forall n, br_at (result O g a a2 v r b) n -> br_at g n).
  { intros n (m & Hm & En & Km). destruct (Fr m Hm) as (x & Hx & E1' & E2'). exists x. split; [assumption|]. split; congruence. }
  assert (Er : pos (fst a) < pos (nid r) /\ pos (fst v) < pos (nid r) /\ pos (fst a2) < pos (nid b)).
  { split; [|split]; apply P1; try assumption; rewrite ?Ir, ?Ib; simpl; auto. }
  split; [|split; [|split]].
  - split.
    + intros m w rest Hm HVm Ei. apply IR in Hm. destruct Hm as (x & Hx & Kx & ->). cbn [with_ins nid ins] in *. destruct (ins x) as [|w1 rest1] eqn:Ex; [discriminate|]. simpl in Ei. injection Ei as <- _.
      rewrite sigma_cases by assumption. pose proof (I1 _ _ _ _ _ H x w1 rest1 Hx HVm Ex) as X.
      assert (Xr : In a Sc \/ exists k, In k Vo /\ a = (k, 0)) by (apply (I1 _ _ _ _ _ H r a [ixr; v] Hr); [apply in_or_app; left; apply HV, Vr|assumption]).
      assert (Xb : In a2 Sc \/ exists k, In k Vo /\ a2 = (k, 0)) by (apply (I1 _ _ _ _ _ H b a2 [ixb] Hb); [apply in_or_app; left; apply HV, Vb|assumption]).
      destruct (wire_dec w1 (nid b, 1)) as [->|].
      { exfalso. destruct X as [X|(k & _ & X)]; [exact (NS _ _ Vb X)|discriminate]. }
      destruct (wire_dec w1 (nid b, 0)) as [->|]; [unfold sr; destruct (wire_dec a2 (nid r, 0)); assumption|]. destruct (wire_dec w1 (nid r, 0)) as [->|]; [assumption|exact X].
    + intros w Hw B. apply (I2 _ _ _ _ _ H w Hw (Br _ B)).
    + apply (I3 _ _ _ _ _ H).
    + intros w Hw. destruct (I4 _ _ _ _ _ H w Hw) as [(m & Hm & Em & Lm) B]. split; [|intro K; apply B, Br, K].
      exists (with_ins O m (map (sigma O a a2 v r b) (ins m))). split; [|auto]. apply IR. exists m. split; [assumption|]. split; [|reflexivity]. apply KN.
      assert (X : forall y, In y g -> In (nid y) V -> is_br (knd y) = true -> nid m <> nid y).
      { intros y Hy Vy Ky E. apply (I3 _ _ _ _ _ H (nid y)); [apply HV, Vy|]. rewrite <- E, Em. apply B. exists y. split; [assumption|]. split; [congruence|assumption]. }
      split; apply X; try assumption; [rewrite Kr|rewrite Kb]; reflexivity.
    + intros m Hm HVm. apply IR in Hm. destruct Hm as (x & Hx & _ & ->). apply (I5 _ _ _ _ _ H x Hx HVm).
  - split.
    + intros m w Hm Hw. apply IR in Hm. destruct Hm as (x & Hx & _ & ->). cbn [with_ins nid ins] in *. apply in_map_iff in Hw. destruct Hw as (w1 & <- & Hw). pose proof (P1 x w1 Hx Hw) as L. rewrite sigma_cases by assumption.
      destruct (wire_dec w1 (nid b, 1)) as [->|]; [simpl in L; lia|]. destruct (wire_dec w1 (nid b, 0)) as [->|]; [unfold sr; destruct (wire_dec a2 (nid r, 0)) as [X|]; simpl in L; lia|].
      destruct (wire_dec w1 (nid r, 0)) as [->|]; [simpl in L; lia|assumption].
    + intros m Hm. apply IR in Hm. destruct Hm as (x & Hx & _ & ->). apply (P2 x Hx).
  - exact Fr.
  - intros m Hm NV. exists (with_ins O m (map (sigma O a a2 v r b) (ins m))). split; [|auto]. apply IR. exists m. split; [assumption|]. split; [|reflexivity]. apply KN. split; intro E; apply NV; rewrite E; assumption.
Qed.

(** ** Entries *)
Lemma in_get : forall b e, NoDup (map fst b) -> In e b -> get b (fst e) = Some (snd e).
Proof.
  induction b as [|[j x] b IH]; intros e N H; [destruct H|]. simpl in N. inversion N as [|? ? N1 N2]; subst. simpl. destruct H as [<-|H]; [simpl; rewrite Nat.eqb_refl; reflexivity|].
  destruct (Nat.eqb_spec j (fst e)) as [E|E]; [exfalso; apply N1; rewrite E; apply in_map, H|apply IH; assumption].
Qed.
Lemma del_keys : forall b i j, In j (map fst (del b i)) -> In j (map fst b) /\ j <> i.
Proof. intros b i j H. apply in_map_iff in H. destruct H as (e & <- & H). apply filter_In in H. destruct H as [H E]. split; [apply in_map, H|]. apply negb_true_iff, Nat.eqb_neq in E. assumption. Qed.
Lemma del_nodup : forall b i, NoDup (map fst b) -> NoDup (map fst (del b i)).
Proof.
  induction b as [|[j x] b IH]; intros i N; [constructor|]. simpl in N. inversion N as [|? ? N1 N2]; subst. unfold del in *. simpl. destruct (negb (Nat.eqb j i)); [|auto]. simpl. constructor; [|auto].
  intro K. apply N1. apply (del_keys b i j K).
Qed.
Lemma put_nodup : forall b i x, NoDup (map fst b) -> NoDup (map fst (put b i x)).
Proof. intros b i x N. unfold put. simpl. constructor; [|apply del_nodup, N]. intro K. apply del_keys in K. tauto. Qed.
Lemma scan_nodup : forall ops b, NoDup (map fst b) -> NoDup (map fst (fst (scan b ops))).
Proof.
  induction ops as [|op ops IH]; intros b N; [exact N|]. simpl. assert (N1 : NoDup (map fst (fst (scan_op b op)))).
  { destruct op as [[n i] a]. unfold scan_op. destruct a; destruct (get b i) as [[b0 [r|]]|]; cbn [fst]; first [apply put_nodup, N|apply del_nodup, N|exact N]. }
  destruct (scan_op b op) as [b1 e1]. simpl in N1. specialize (IH b1 N1). destruct (scan b1 ops). exact IH.
Qed.

(** ** One traversal *)
Definition traverse := traverse O T T_eqb is_array ty order.
Definition post (g : graph) Vo Vs Sc Q s pos N g' Vo' Vs' Sc' c : Prop :=
  wfg g' /\ Inv g' Vo' Vs' Sc' (Q ++ c) /\ same_all g g' /\ pot pos N g' /\ incl Vo Vo' /\ incl Vs Vs' /\ In s Sc' /\ incl Sc Sc' /\
  (forall w, In w Sc' -> In w Sc \/ w = s \/ (In (fst w) Vo' /\ br_at g' (fst w) /\ ~ In (fst w) (Vo ++ Vs))) /\ from g g' /\
  (forall m, In m g -> (is_br (knd m) = true -> In (nid m) (Vo ++ Vs)) -> exists m', In m' g' /\ nid m' = nid m /\ knd m' = knd m).
Lemma from_refl : forall g, from g g.
Proof. intros g m H. exists m. auto. Qed.
Lemma from_trans : forall a b c, from a b -> from b c -> from a c.
Proof. intros a b c A B m H. destruct (B m H) as (x & Hx & E1' & E2'). destruct (A x Hx) as (y & Hy & E3 & E4). exists y. split; [assumption|]. split; congruence. Qed.
Lemma all_outs_prod : forall (g : graph) m w, In m g -> In w (all_outs O m) -> produced g w /\ fst w = nid m.
Proof. intros g m w Hm H. apply in_map_iff in H. destruct H as (p & <- & H). apply in_seq in H. split; [exists m; simpl; split; [assumption|]; split; [reflexivity|lia]|reflexivity]. Qed.

Theorem traverse_ok : forall fuel g s Vo Vs Sc Q pos N, wfg g -> Inv g Vo Vs Sc Q -> start_ok g Vo Vs Sc s -> pot pos N g -> N - pos (fst s) < fuel ->
  exists g' el c Vo' Vs' Sc', traverse fuel true g s = Some (g', el, c) /\ post g Vo Vs Sc Q s pos N g' Vo' Vs' Sc' c.
Proof.
  induction fuel as [|fuel IH]; intros g s Vo Vs Sc Q pos N W H St Pt L; [lia|].
  pose proof W as [Tp [T1 T2]]. assert (Nd : NoDup (map nid g)) by apply Tp. pose proof (start_fresh g Vo Vs Sc Q s H St) as [Fs1 Fs2]. destruct St as (Ps & Ns & Bs).
  unfold traverse in *. cbn [BorrowModel.traverse].
  assert (Ex : existsb (fun m : node => Nat.eqb (nid m) (fst s) && Nat.ltb (snd s) (n_outs (knd m))) g = true).
  { apply existsb_exists. destruct Ps as (m & Hm & Em & Lm). exists m. split; [assumption|]. rewrite Em, Nat.eqb_refl. apply Nat.ltb_lt, Lm. }
  rewrite Ex. cbn [negb].
  assert (I2s : br_at g (fst s) -> (snd s = 0 -> In (fst s) Vs) /\ In (fst s) (Vo ++ Vs)).
  { intro B. destruct (Bs B) as [X|[X Y]]; (split; [|apply in_or_app; auto]); [auto|intro Z; rewrite Y in Z; discriminate]. }
  destruct (is_array (ty s)) eqn:Ar; cbn [negb].
  2:{ (* not an array *)
    eexists g, [], _, Vo, Vs, (s :: Sc). split; [reflexivity|]. split; [assumption|]. split.
    - split.
      + intros m w rest Hm Vm Ei. destruct (I1 _ _ _ _ _ H m w rest Hm Vm Ei) as [X|X]; [left; right; assumption|right; assumption].
      + intros w [<-|Hw] B; [apply I2s, B|apply (I2 _ _ _ _ _ H w Hw B)].
      + apply (I3 _ _ _ _ _ H).
      + intros w Hw. apply in_app_or in Hw. destruct Hw as [Hw|Hw]; [apply (I4 _ _ _ _ _ H w Hw)|]. apply in_flat_map in Hw. destruct Hw as (t & _ & Hw). destruct (find_node O g (fst t)) as [m|] eqn:Fm; [|destruct Hw].
        apply find_node_In in Fm. destruct Fm as [Hm _]. destruct (is_br (knd m)) eqn:Km; [destruct Hw|]. destruct (all_outs_prod g m w Hm Hw) as [Pw Ew]. split; [assumption|]. intros (k & Hk & Ek & Kk).
        assert (k = m) by (apply (node_unique O g); auto; congruence). subst k. congruence.
      + apply (I5 _ _ _ _ _ H).
    - split; [apply same_all_refl|]. split; [assumption|]. split; [apply incl_refl|]. split; [apply incl_refl|]. split; [left; reflexivity|]. split; [intros x Hx; right; assumption|]. split; [intros w [<-|Hw]; auto|]. split; [apply from_refl|]. intros m Hm _. exists m. auto. }
  assert (Rs : rank O g (fst s) < length g) by (apply rank_lt; destruct Ps as (m & Hm & Em & _); rewrite <- Em; apply in_map, Hm).
  destruct (walk_ok (S (length g)) g (ty s) s W Ps Ar eq_refl) as (ops & c & Ew & Ch & Stp); [lia|]. rewrite Ew.
  destruct (fresh_chain g Vo Vs Sc Q H ops s Ch Fs1 Fs2) as (Fo & Fc1 & Fc2).
  set (V := map onode ops).
  assert (FV : forall n, In n V -> ~ In n (Vo ++ Vs)) by (intros n Hn; apply in_map_iff in Hn; destruct Hn as (op & <- & Hop); apply Fo, Hop).
  (* the node with an unknown index, if the walk stopped at one *)
  assert (SV : exists Sv, (forall n, In n Sv -> ~ In n (Vo ++ Vs) /\ ~ In n V /\ br_at g n /\ (forall m w rest, In m g -> nid m = n -> ins m = w :: rest -> w = cend s ops)) /\
     forall w, In w c -> produced g w /\ (br_at g (fst w) -> In (fst w) Sv)).
  { destruct Stp as (m & p & Hm & Hp & [[Km ->]|[(Km & -> & ->)|(Km & -> & ->)]]).
    - exists []. split; [intros n []|]. intros w Hw. destruct (all_outs_prod g m w Hm Hw) as [Pw Ew']. split; [assumption|]. intros (k & Hk & Ek & Kk). assert (k = m) by (apply (node_unique O g); auto; congruence). subst k. congruence.
    - exists [nid m]. split.
      + intros n [<-|[]]. destruct (ins m) as [|w1 rest1] eqn:Em; [discriminate|]. simpl in Hp. injection Hp as ->.
        split; [|split; [|split]].
        * intro K. destruct (I1 _ _ _ _ _ H m _ rest1 Hm K Em) as [X|(k & X1 & X2)]; [contradiction|exact (Fc2 k X2 X1)].
        * intro K. apply in_map_iff in K. destruct K as (op & Eo & Hop). apply in_split in Hop. destruct Hop as (x & y & ->). apply chain_app in Ch. destruct Ch as [_ [_ Cy]].
          pose proof (chain_cend_rank O T is_array elem ty g y _ W Cy) as R1. rewrite cend_app in Em. simpl in Em.
          apply topological_ranked in Tp. destruct Tp as [_ R]. destruct (R m (cend (onode op, 0) y) Hm) as [_ R2]; [rewrite Em; left; reflexivity|]. simpl in R1. rewrite Eo in *. lia.
        * exists m. auto.
        * intros m' w rest Hm' En Ei. assert (m' = m) by (apply (node_unique O g); auto). subst m'. rewrite Em in Ei. congruence.
      + intros w Hw. destruct (all_outs_prod g m w Hm Hw) as [Pw Ew']. split; [assumption|]. intros _. left. auto.
    - exists []. split; [intros n []|intros w []]. }
  destruct SV as (Sv & SV1 & SV2).
  set (Vo1 := V ++ Vo). set (Vs1 := Sv ++ Vs). set (Sc1 := s :: Sc). set (Q1 := Q ++ c).
  assert (NS : forall n p, In n V -> ~ In (n, p) Sc1).
  { intros n p Hn [Es|K].
    - apply in_map_iff in Hn. destruct Hn as (op & Eo & Hop). pose proof (chain_rank O T is_array elem ty g ops _ W Ch op Hop) as R1. rewrite Es in R1. simpl in R1. rewrite Eo in R1. lia.
    - apply (FV n Hn). apply (I2 _ _ _ _ _ H (n, p) K). simpl. apply in_map_iff in Hn. destruct Hn as (op & Eo & Hop). destruct (chain_wire O g ops s Ch op Hop) as (w' & _ & (m & _ & _ & Hm & Em & Km & _)).
      exists m. split; [assumption|]. split; [congruence|]. rewrite Km. destruct (oact op); reflexivity. }
  (* inputs of the operations *)
  assert (InV : forall op, In op ops -> forall m w rest, In m g -> nid m = onode op -> ins m = w :: rest -> In w (s :: map out ops)).
  { intros op Hop m w rest Hm En Ei. destruct (chain_wire O g ops s Ch op Hop) as (w' & Hw' & (m' & ix & rest' & Hm' & En' & _ & Ei' & _)). assert (m' = m) by (apply (node_unique O g); auto; congruence). subst m'. rewrite Ei in Ei'. injection Ei' as -> _. exact Hw'. }
  assert (OutV : forall w, In w (s :: map out ops) -> In w Sc1 \/ exists k, In k Vo1 /\ w = (k, 0)).
  { intros w [<-|Hw]; [left; left; reflexivity|right]. apply in_map_iff in Hw. destruct Hw as (op & <- & Hop). exists (onode op). split; [apply in_or_app; left; apply in_map, Hop|reflexivity]. }
  assert (Inv1 : Inv g Vo1 Vs1 Sc1 Q1).
  { split.
    - intros m w rest Hm Vm Ei. unfold Vo1, Vs1 in Vm. rewrite !in_app_iff in Vm. destruct (in_dec Nat.eq_dec (nid m) V) as [HV|HV].
      + apply in_map_iff in HV. destruct HV as (op & Eo & Hop). apply OutV. apply (InV op Hop m w rest Hm); [auto|assumption].
      + destruct (in_dec Nat.eq_dec (nid m) Sv) as [HS|HS].
        * destruct (SV1 _ HS) as (_ & _ & _ & X). rewrite (X m w rest Hm eq_refl Ei). apply OutV. apply cend_out.
        * assert (Vm' : In (nid m) (Vo ++ Vs)) by (apply in_or_app; tauto). destruct (I1 _ _ _ _ _ H m w rest Hm Vm' Ei) as [X|(k & X1 & X2)]; [left; right; assumption|right; exists k; split; [apply in_or_app; auto|assumption]].
    - intros w Hw B. destruct Hw as [<-|Hw].
      + destruct (I2s B) as [X Y]. split; [intro Z; apply in_or_app; right; auto|]. unfold Vo1, Vs1. apply in_app_or in Y. rewrite !in_app_iff. tauto.
      + destruct (I2 _ _ _ _ _ H w Hw B) as [X Y]. split; [intro Z; apply in_or_app; right; auto|]. unfold Vo1, Vs1. apply in_app_or in Y. rewrite !in_app_iff. tauto.
    - intros n Hn1 Hn2. unfold Vo1, Vs1 in *. apply in_app_or in Hn1. apply in_app_or in Hn2. destruct Hn1 as [A|A]; destruct Hn2 as [B|B].
      + destruct (SV1 n B) as (_ & X & _). exact (X A).
      + apply (FV n A). apply in_or_app. auto.
      + destruct (SV1 n B) as (X & _). apply X, in_or_app. auto.
      + apply (I3 _ _ _ _ _ H n A B).
    - intros w Hw. apply in_app_or in Hw. destruct Hw as [Hw|Hw].
      + destruct (I4 _ _ _ _ _ H w Hw) as [X Y]. split; [assumption|]. intro B. apply in_or_app. auto.
      + destruct (SV2 w Hw) as [X Y]. split; [assumption|]. intro B. apply in_or_app. auto.
    - intros m Hm Vm. unfold Vo1, Vs1 in Vm. rewrite !in_app_iff in Vm. destruct Vm as [[A|A]|[A|A]].
      + apply in_map_iff in A. destruct A as (op & Eo & Hop). destruct (chain_wire O g ops s Ch op Hop) as (w' & _ & (m' & _ & _ & Hm' & Em & Km & _)). assert (m' = m) by (apply (node_unique O g); auto; congruence). subst m'. rewrite Km. destruct (oact op); reflexivity.
      + apply (I5 _ _ _ _ _ H m Hm). apply in_or_app. auto.
      + destruct (SV1 _ A) as (_ & _ & (m' & Hm' & Em & Km) & _). assert (m' = m) by (apply (node_unique O g); auto; congruence). subst m'. assumption.
      + apply (I5 _ _ _ _ _ H m Hm). apply in_or_app. auto. }
  (* the elisions *)
  set (P := fun g1 : graph => Inv g1 Vo1 Vs1 Sc1 Q1 /\ pot pos N g1 /\ from g g1 /\ (forall m, In m g -> ~ In (nid m) V -> exists m', In m' g1 /\ nid m' = nid m /\ knd m' = knd m)).
  assert (HP : forall g1 g2 nr nb, wfg g1 -> P g1 -> elided g1 g2 nr nb -> In nr V -> In nb V -> P g2).
  { intros g1 g2 nr nb W1 (A1 & A2 & A3 & A4) E Vr Vb. destruct (elided_inv g1 g2 nr nb Vo1 Vs1 Sc1 Q1 V pos N W1 A1 A2 E Vr Vb) as (B1 & B2 & B3 & B4); [intros x Hx; apply in_or_app; auto|exact NS|].
    split; [assumption|]. split; [assumption|]. split; [eapply from_trans; eassumption|]. intros m Hm NV. destruct (A4 m Hm NV) as (m1 & Hm1 & E1' & K1). destruct (B4 m1 Hm1) as (m2 & Hm2 & E2' & K2); [congruence|]. exists m2. split; [assumption|]. split; congruence. }
  assert (P0 : P g) by (split; [assumption|]; split; [assumption|]; split; [apply from_refl|]; intros m Hm _; exists m; auto).
  assert (Ii : inv [] []) by (intro i; split; [reflexivity|exact I]).
  destruct (scan_ok O T is_array elem ty P V HP ops [] [] g s W P0 Ch Ii (incl_refl _)) as (g1 & kept & Eg & W1 & (Inv2 & Pt1 & Fr1 & Kp1) & Ck & Ik & SA & Kincl).
  destruct (scan [] ops) as [borrowed elisions] eqn:Sc0. simpl in Eg, Ik. rewrite Eg.
  assert (Nb : NoDup (map fst borrowed)) by (pose proof (scan_nodup ops [] (NoDup_nil _)) as X; rewrite Sc0 in X; exact X).
  (* what is recorded as borrowed *)
  assert (Bor : forall e, In e borrowed -> In (fst (snd e), fst e, ABorrow) kept).
  { intros e He. pose proof (in_get borrowed e Nb He) as Ge. destruct (Ik (fst e)) as [_ X]. rewrite Ge in X. destruct (snd e) as [b0 [r|]]; destruct X as (l & El); simpl.
    - assert (Y : In (b0, fst e, ABorrow) (at_idx (fst e) kept)) by (rewrite El; apply in_or_app; right; left; reflexivity). apply filter_In in Y. apply Y.
    - assert (Y : In (b0, fst e, ABorrow) (at_idx (fst e) kept)) by (rewrite El; apply in_or_app; right; left; reflexivity). apply filter_In in Y. apply Y. }
  assert (Idx : forall n i j, In (n, i, ABorrow) kept -> In (n, j, ABorrow) kept -> i = j).
  { intros n i j Hi Hj. destruct (chain_wire O g1 kept s Ck _ Hi) as (wi & _ & (mi & ixi & ri & Hmi & Eni & _ & Eii & ci & Hci & Eci & Kci)). destruct (chain_wire O g1 kept s Ck _ Hj) as (wj & _ & (mj & ixj & rj & Hmj & Enj & _ & Eij & cj & Hcj & Ecj & Kcj)).
    unfold onode, oidx in *. simpl in *. assert (Nd1 : NoDup (map nid g1)) by apply W1. assert (mi = mj) by (apply (node_unique O g1); auto; congruence). subst mj. rewrite Eii in Eij. injection Eij as _ <- _.
    assert (ci = cj) by (apply (node_unique O g1); auto; congruence). subst cj. congruence. }
  assert (Nb0 : NoDup (map (fun e => fst (snd e)) borrowed)).
  { revert Bor Nb. generalize borrowed as l. induction l as [|e l IHl]; intros Bo Nl; [constructor|]. simpl in *. inversion Nl as [|? ? N1 N2]; subst. constructor; [|apply IHl; auto].
    intro K. apply in_map_iff in K. destruct K as (e' & Ee & He'). apply N1. assert (X1 := Bo e (or_introl eq_refl)). assert (X2 := Bo e' (or_intror He')). rewrite Ee in X2. rewrite (Idx _ _ _ X1 X2). apply in_map, He'. }
  (* the recursion *)
  assert (Rec : forall LL g1 el c1 Vo1' Vs1' Sc1', NoDup (map (fun e : nat * (nat * option nat) => fst (snd e)) LL) ->
     (forall e, In e LL -> In (fst (snd e)) Vo1' /\ produced g1 (fst (snd e), 1) /\ ~ In (fst (snd e), 1) Sc1' /\ pos (fst s) < pos (fst (snd e)) /\ ~ In (fst (snd e)) (Vo ++ Vs)) ->
     post g Vo Vs Sc Q s pos N g1 Vo1' Vs1' Sc1' c1 ->
     exists g' el' c' Vo' Vs' Sc', fold_left (fun acc e => match acc with None => None | Some (g, el, c) =>
         match BorrowModel.traverse O T T_eqb is_array ty order fuel true g (fst (snd e), 1) with Some (g', el', c') => Some (g', el ++ el', c ++ c') | None => None end end) LL (Some (g1, el, c1)) = Some (g', el', c') /\
       post g Vo Vs Sc Q s pos N g' Vo' Vs' Sc' c').
  { clear Inv2 Pt1 Fr1 Kp1 SA Eg Ck Ik Kincl Idx Nb0 Nb Bor Sc0 W1 g1. induction LL as [|e LL IHL]; intros g1 el c1 Vo1' Vs1' Sc1' NL HL Pst.
    - exists g1, el, c1, Vo1', Vs1', Sc1'. split; [reflexivity|exact Pst].
    - simpl. destruct (HL e (or_introl eq_refl)) as (E1' & E2' & E3 & E4 & E5). destruct Pst as (W1 & J1 & S1 & Pt1 & A1 & A2 & A3 & A4 & A5 & A6 & A7).
      assert (Sx : start_ok g1 Vo1' Vs1' Sc1' (fst (snd e), 1)) by (split; [assumption|]; split; [assumption|]; intros _; right; auto).
      destruct (IH g1 (fst (snd e), 1) Vo1' Vs1' Sc1' (Q ++ c1) pos N W1 J1 Sx Pt1) as (g2 & el2 & c2 & Vo2 & Vs2 & Sc2 & Et & (W2 & J2 & S2 & Pt2 & B1 & B2 & B3 & B4 & B5 & B6 & B7)); [simpl; destruct E2' as (mm & Hmm & Emm & _); simpl in Emm; pose proof (proj2 Pt1 mm Hmm); rewrite Emm in *; lia|].
      rewrite Et. simpl in NL. inversion NL as [|? ? NL1 NL2]; subst.
      apply (IHL g2 (el ++ el2) (c1 ++ c2) Vo2 Vs2 Sc2 NL2).
      + intros e' He'. destruct (HL e' (or_intror He')) as (F1 & F2 & F3 & F4 & F5). split; [apply B1, F1|]. split; [|split; [|split; assumption]].
        * destruct F2 as (m & Hm & Em & Lm). destruct (B7 m Hm) as (m2 & Hm2 & Em2 & Km2); [intros _; simpl in Em; rewrite Em; apply in_or_app; auto|]. exists m2. split; [assumption|]. split; [congruence|]. rewrite Km2. assumption.
        * intro K. destruct (B5 _ K) as [X|[X|(_ & _ & X)]]; [contradiction| |apply X; simpl; apply in_or_app; auto]. injection X as X. apply NL1. rewrite <- X. apply (in_map (fun e : nat * (nat * option nat) => fst (snd e))), He'.
      + split; [assumption|]. split; [rewrite app_assoc; assumption|]. split; [eapply same_all_trans; eassumption|]. split; [assumption|]. split; [eapply incl_tran; eassumption|]. split; [eapply incl_tran; eassumption|]. split; [apply B4, A3|]. split; [eapply incl_tran; eassumption|].
        split; [|split; [eapply from_trans; eassumption|]].
        * intros w Hw. destruct (B5 w Hw) as [X|[->|(X1 & X2 & X3)]].
          -- destruct (A5 w X) as [Y|[Y|(Y1 & (ym & Hym & Eym & Kym) & Y3)]]; [auto|auto|]. right. right. split; [apply B1, Y1|]. split; [|assumption]. destruct (B7 ym Hym) as (m2 & Hm2 & Em2 & Km2); [intros _; rewrite Eym; apply in_or_app; auto|]. exists m2. split; [assumption|]. split; congruence.
          -- (* the start of the recursion *)
             right. right. simpl. split; [apply B1, E1'|]. destruct E2' as (m & Hm & Em & Lm). simpl in Em. assert (Km : is_br (knd m) = true) by (apply (I5 _ _ _ _ _ J1 m Hm); rewrite Em; apply in_or_app; auto).
             split; [|].
             ++ destruct (B7 m Hm) as (m2 & Hm2 & Em2 & Km2); [intros _; rewrite Em; apply in_or_app; auto|]. exists m2. split; [assumption|]. split; congruence.
             ++ assumption.
          -- right. right. split; [assumption|]. split; [assumption|]. intro K. apply X3. apply in_app_or in K. apply in_or_app. destruct K as [K|K]; [left; apply A1, K|right; apply A2, K].
        * intros m Hm HVm. destruct (A7 m Hm HVm) as (m1 & Hm1 & Em1 & Km1). destruct (B7 m1 Hm1) as (m2 & Hm2 & Em2 & Km2); [rewrite Km1, Em1; intro X; specialize (HVm X); apply in_app_or in HVm; apply in_or_app; destruct HVm as [K|K]; [left; apply A1, K|right; apply A2, K]|].
          exists m2. split; [assumption|]. split; congruence. }
  assert (Vincl : incl (map onode kept) V) by (intros x Hx; apply in_map_iff in Hx; destruct Hx as (op & <- & Hop); apply in_map; apply (Kincl op Hop)).
  destruct (Rec (order borrowed) g1 elisions c Vo1 Vs1 Sc1) as (g' & el' & c' & Vo' & Vs' & Sc' & Ef & Pst).
  - apply (Permutation_NoDup (l := map (fun e => fst (snd e)) borrowed)); [|assumption]. apply Permutation_map. apply Permutation_sym, order_perm.
  - intros e He. assert (He' : In e borrowed) by (apply (Permutation_in _ (order_perm borrowed)), He). specialize (Bor e He').
    assert (VB : In (fst (snd e)) V) by (apply Vincl; change (fst (snd e)) with (onode (fst (snd e), fst e, ABorrow)); apply in_map, Bor).
    split; [apply in_or_app; auto|]. split; [|split; [apply NS, VB|split; [|apply FV, VB]]].
    + destruct (chain_wire O g1 kept s Ck _ Bor) as (w' & _ & (m & _ & _ & Hm & Em & Km & _)). exists m. unfold onode, oact in *. simpl in *. split; [assumption|]. split; [assumption|]. rewrite Km. simpl. lia.
    + apply in_map_iff in VB. destruct VB as (op & <- & Hop). apply (chain_pos O pos g (proj1 Pt) ops s Ch op Hop).
  - split; [assumption|]. split; [assumption|]. split; [assumption|]. split; [assumption|]. split; [intros x Hx; apply in_or_app; auto|]. split; [intros x Hx; apply in_or_app; auto|]. split; [left; reflexivity|]. split; [intros x Hx; right; assumption|].
    split; [intros w [<-|Hw]; auto|]. split; [assumption|]. intros m Hm HVm. apply Kp1; [assumption|]. intro K. apply (FV _ K). apply HVm. apply in_map_iff in K. destruct K as (op & Eo & Hop).
    destruct (chain_wire O g ops s Ch op Hop) as (w' & _ & (m' & _ & _ & Hm' & Em & Km & _)). assert (m' = m) by (apply (node_unique O g); auto; congruence). subst m'. rewrite Km. destruct (oact op); reflexivity.
  - exists g', el', c', Vo', Vs', Sc'. split; [exact Ef|exact Pst].
Qed.

(** ** From any wire *)
Theorem array_ok : forall rec g s, wfg g -> produced g s ->
  exists g' el c, BorrowModel.traverse O T T_eqb is_array ty order (S (length g)) rec g s = Some (g', el, c) /\ wfg g' /\ same_all g g' /\ from g g'.
Proof.
  intros rec g s W P. destruct rec.
  - assert (Nd : NoDup (map nid g)) by apply W. pose proof W as [Tp _]. apply topological_ranked in Tp. destruct Tp as [_ R].
    set (Vs := map nid (filter (fun m : node => is_br (knd m) && Nat.leb (rank O g (nid m)) (rank O g (fst s))) g)).
    set (Sc := filter (fun w => Nat.ltb (rank O g (fst w)) (rank O g (fst s))) (flat_map ins g)).
    assert (VI : forall m, In m g -> In (nid m) Vs <-> is_br (knd m) = true /\ rank O g (nid m) <= rank O g (fst s)).
    { intros m Hm. unfold Vs. rewrite in_map_iff. split.
      - intros (x & E & Hx). apply filter_In in Hx. destruct Hx as [Hx B]. assert (x = m) by (apply (node_unique O g); auto). subst x. apply andb_true_iff in B. destruct B as [B1 B2]. apply Nat.leb_le in B2. auto.
      - intros [B1 B2]. exists m. split; [reflexivity|]. apply filter_In. split; [assumption|]. rewrite B1. apply Nat.leb_le, B2. }
    assert (SI : forall w, In w Sc <-> In w (flat_map ins g) /\ rank O g (fst w) < rank O g (fst s)) by (intro w; unfold Sc; rewrite filter_In, Nat.ltb_lt; tauto).
    destruct (traverse_ok (S (length g)) g s [] Vs Sc [] (rank O g) (length g) W) as (g' & el & c & Vo' & Vs' & Sc' & E & (W' & _ & S1 & _ & _ & _ & _ & _ & _ & F & _)).
    + split.
      * intros m w rest Hm Vm Ei. simpl in Vm. apply VI in Vm; [|assumption]. left. apply SI. split; [apply in_flat_map; exists m; rewrite Ei; simpl; auto|]. destruct (R m w Hm) as [_ X]; [rewrite Ei; left; reflexivity|]. lia.
      * intros w Hw (m & Hm & Em & Km). apply SI in Hw. simpl. rewrite <- Em in *. assert (X : In (nid m) Vs) by (apply VI; [assumption|]; split; [assumption|lia]). auto.
      * intros n [].
      * intros w [].
      * intros m Hm Vm. simpl in Vm. apply VI in Vm; tauto.
    + split; [assumption|]. split; [intro K; apply SI in K; lia|]. intros (m & Hm & Em & Km). left. rewrite <- Em. apply VI; [assumption|]. rewrite Em. split; [assumption|lia].
    + split; [intros m w Hm Hw; apply (R m w Hm Hw)|]. intros m Hm. apply rank_lt. apply in_map, Hm.
    + lia.
    + exists g', el, c. auto.
  - cbn [BorrowModel.traverse].
    assert (Ex : existsb (fun m : node => Nat.eqb (nid m) (fst s) && Nat.ltb (snd s) (n_outs (knd m))) g = true).
    { apply existsb_exists. destruct P as (m & Hm & Em & Lm). exists m. split; [assumption|]. rewrite Em, Nat.eqb_refl. apply Nat.ltb_lt, Lm. }
    rewrite Ex. cbn [negb]. destruct (is_array (ty s)) eqn:Ar; cbn [negb]; [|eexists g, [], _; split; [reflexivity|]; split; [assumption|]; split; [apply same_all_refl|apply from_refl]].
    assert (Rs : rank O g (fst s) < length g) by (apply rank_lt; destruct P as (m & Hm & Em & _); rewrite <- Em; apply in_map, Hm).
    destruct (walk_ok (S (length g)) g (ty s) s W P Ar eq_refl) as (ops & c & Ew & Ch & _); [lia|]. rewrite Ew.
    assert (Ii : inv [] []) by (intro i; split; [reflexivity|exact I]).
    destruct (scan_ok O T is_array elem ty (fun g1 => from g g1) (map onode ops)) with (ops := ops) (b := @nil (nat * (nat * option nat))) (kept := @nil aop) (g := g) (start := s) as (g1 & kept & Eg & W1 & F & _ & _ & SA & _); try assumption.
    + intros g1 g2 nr nb _ F (a & a2 & v & ixr & ixb & r & b & _ & _ & _ & _ & _ & _ & _ & _ & _ & _ & _ & _ & -> & _) _ _. eapply from_trans; [exact F|]. intros m Hm. unfold result in Hm. apply in_map_iff in Hm. destruct Hm as (x & <- & Hx). apply filter_In in Hx. exists x. split; [apply Hx|auto].
    + apply from_refl.
    + apply incl_refl.
    + destruct (scan [] ops) as [bo el]. simpl in Eg. rewrite Eg. exists g1, el, c. auto.
Qed.

(** ** A region *)
Definition left_of (U seen : list wire) : nat := length (filter (fun w => if in_dec wire_dec w seen then false else true) U).
Lemma left_less : forall U seen w, In w U -> ~ In w seen -> left_of U (w :: seen) < left_of U seen.
Proof.
  assert (M : forall U seen w, left_of U (w :: seen) <= left_of U seen).
  { intros U seen w. unfold left_of. induction U as [|x U IH]; [simpl; lia|]. cbn [filter]. destruct (in_dec wire_dec x (w :: seen)) as [a|a]; destruct (in_dec wire_dec x seen) as [b|b]; cbn [length]; try lia. exfalso. apply a. right. assumption. }
  intros U seen w. induction U as [|x U IH]; intros H N; [destruct H|]. unfold left_of in *. cbn [filter]. specialize (M U seen w). unfold left_of in M.
  destruct H as [->|H].
  - destruct (in_dec wire_dec w (w :: seen)) as [a|a]; [|exfalso; apply a; left; reflexivity]. destruct (in_dec wire_dec w seen); [contradiction|]. cbn [length]. lia.
  - specialize (IH H N). destruct (in_dec wire_dec x (w :: seen)) as [a|a]; destruct (in_dec wire_dec x seen) as [b|b]; cbn [length]; try lia. exfalso. apply a. right. assumption.
Qed.
Lemma loop_ok : forall U k g seen queue results Vo Vs Sc, left_of U seen <= k -> wfg g -> Inv g Vo Vs Sc queue -> (forall w, produced g w -> In w U) ->
  (forall w, In w Sc -> In w seen \/ (br_at g (fst w) /\ In (fst w) Vo)) ->
  exists n g' el, (forall fuel, n <= fuel -> squash_loop O T T_eqb is_array ty order fuel g seen queue results = Some (g', el)) /\ wfg g' /\ same_all g g' /\ from g g'.
Proof.
  intros U. induction k as [|k IHk]; intros g seen queue; induction queue as [|start queue IHq]; intros results Vo Vs Sc Lk W H HU HS.
  - exists 1, g, results. split; [|split; [assumption|split; [apply same_all_refl|apply from_refl]]]. intros [|fuel] L; [lia|reflexivity].
  - (* everything has been seen *)
    assert (Hs : In start seen).
    { destruct (in_dec wire_dec start seen) as [|Ns]; [assumption|]. exfalso. destruct (I4 _ _ _ _ _ H start (or_introl eq_refl)) as [P _]. pose proof (left_less U seen start (HU _ P) Ns). lia. }
    assert (H' : Inv g Vo Vs Sc queue) by (destruct H; split; auto; intros w Hw; auto using in_cons).
    destruct (IHq results Vo Vs Sc Lk W H' HU HS) as (n & g' & el & E & Q). exists (S n), g', el. split; [|exact Q]. intros [|fuel] L; [lia|]. cbn [squash_loop]. destruct (in_dec wire_dec start seen); [|contradiction]. apply E. lia.
  - exists 1, g, results. split; [|split; [assumption|split; [apply same_all_refl|apply from_refl]]]. intros [|fuel] L; [lia|reflexivity].
  - assert (H' : Inv g Vo Vs Sc queue) by (destruct H; split; auto; intros w Hw; auto using in_cons).
    destruct (in_dec wire_dec start seen) as [Hs|Ns].
    { destruct (IHq results Vo Vs Sc Lk W H' HU HS) as (n & g' & el & E & Q). exists (S n), g', el. split; [|exact Q]. intros [|fuel] L; [lia|]. cbn [squash_loop]. destruct (in_dec wire_dec start seen); [|contradiction]. apply E. lia. }
    destruct (I4 _ _ _ _ _ H start (or_introl eq_refl)) as [P B].
    pose proof W as [Tp _]. apply topological_ranked in Tp. destruct Tp as [Nd R].
    assert (St : start_ok g Vo Vs Sc start).
    { split; [assumption|]. split; [|intro X; left; apply B, X]. intro K. destruct (HS _ K) as [X|[X1 X2]]; [contradiction|]. exact (I3 _ _ _ _ _ H _ X2 (B X1)). }
    destruct (traverse_ok (S (length g)) g start Vo Vs Sc queue (rank O g) (length g) W H' St) as (g1 & el1 & c & Vo1 & Vs1 & Sc1 & E & (W1 & H1 & S1 & _ & A1 & A2 & A3 & A4 & A5 & F1 & K1)).
    + split; [intros m w Hm Hw; apply (R m w Hm Hw)|]. intros m Hm. apply rank_lt. apply in_map, Hm.
    + lia.
    + destruct (IHk g1 (start :: seen) (queue ++ c) (results ++ el1) Vo1 Vs1 Sc1) as (n & g' & el & E' & (W' & S' & F')).
      * pose proof (left_less U seen start (HU _ P) Ns). lia.
      * assumption.
      * assumption.
      * intros w (m & Hm & Em & Lm). destruct (F1 m Hm) as (m0 & Hm0 & Em0 & Km0). apply HU. exists m0. split; [assumption|]. split; [congruence|]. rewrite Km0. assumption.
      * intros w Hw. destruct (A5 w Hw) as [X|[->|(X1 & X2 & _)]]; [|left; left; reflexivity|right; auto].
        destruct (HS w X) as [Y|[(m & Hm & Em & Km) Y]]; [left; right; assumption|right]. split; [|apply A1, Y]. destruct (K1 m Hm) as (m1 & Hm1 & Em1 & Km1); [intros _; rewrite Em; apply in_or_app; auto|]. exists m1. split; [assumption|]. split; congruence.
      * exists (S n), g', el. split; [|split; [assumption|split; [eapply same_all_trans; eassumption|eapply from_trans; eassumption]]].
        intros [|fuel] L; [lia|]. cbn [squash_loop]. destruct (in_dec wire_dec start seen); [contradiction|]. unfold traverse in E. rewrite E. apply E'. lia.
Qed.
Theorem region_ok : forall g, wfg g -> exists n g' el, (forall fuel, n <= fuel -> squash_region O T T_eqb is_array ty order fuel g = Some (g', el)) /\ wfg g' /\ same_all g g' /\ from g g'.
Proof.
  intros g W. unfold squash_region. apply (loop_ok (flat_map (all_outs O) g) (left_of (flat_map (all_outs O) g) []) g [] _ [] [] [] []); [lia|assumption| | |intros w []].
  - split; try (intros; simpl in *; contradiction).
    intros w Hw. apply in_flat_map in Hw. destruct Hw as (m & Hm & Hw). destruct (ins m) eqn:Ei; [|destruct Hw]. destruct (all_outs_prod g m w Hm Hw) as [P E]. split; [assumption|].
    intros (k & Hk & Ek & Kk). assert (k = m) by (apply (node_unique O g); auto; [apply W|congruence]). subst k. destruct W as [_ [_ T2]]. specialize (T2 m Hm). destruct (knd m); try discriminate; [destruct T2 as (? & ? & Q & _)|destruct T2 as (? & ? & ? & Q & _)]; congruence.
  - intros w (m & Hm & Em & Lm). apply in_flat_map. exists m. split; [assumption|]. apply in_map_iff. exists (snd w). split; [rewrite Em; destruct w; reflexivity|]. apply in_seq. lia.
Qed.
End Pass.
