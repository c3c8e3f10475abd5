(** Proofs about the loop that resolves modifiers. *)
From Coq Require Import List Bool Arith Lia.
From Verif Require Import CleanModel CleanSpec CleanProofs.
Import ListNotations.

(** ** One modifier *)
Lemma count_map_other : forall (n new a : nat) l, a <> new -> a <> n -> count_occ Nat.eq_dec (map (fun y => if y =? n then new else y) l) a = count_occ Nat.eq_dec l a.
Proof.
  intros n new a l N1 N2. induction l as [|y l IH]; [reflexivity|]. cbn [map count_occ]. rewrite IH.
  destruct (y =? n) eqn:E; [apply Nat.eqb_eq in E|apply Nat.eqb_neq in E]; repeat destruct (Nat.eq_dec _ _); try congruence.
Qed.
Lemma count_map_old : forall (n new : nat) l, new <> n -> count_occ Nat.eq_dec (map (fun y => if y =? n then new else y) l) n = 0.
Proof.
  intros n new l N1. induction l as [|y l IH]; [reflexivity|]. cbn [map count_occ]. rewrite IH.
  destruct (y =? n) eqn:E; [apply Nat.eqb_eq in E|apply Nat.eqb_neq in E]; repeat destruct (Nat.eq_dec _ _); try congruence.
Qed.
Lemma count_map_new : forall (n new : nat) l, ~ In new l -> count_occ Nat.eq_dec (map (fun y => if y =? n then new else y) l) new = count_occ Nat.eq_dec l n.
Proof.
  intros n new l. induction l as [|y l IH]; intros N1; [reflexivity|]. cbn [map count_occ]. rewrite IH by (intros J; apply N1; right; exact J).
  destruct (y =? n) eqn:E; [apply Nat.eqb_eq in E|apply Nat.eqb_neq in E]; repeat destruct (Nat.eq_dec _ _); try congruence.
  exfalso. apply N1. left. congruence.
Qed.
Lemma kids_rewire : forall g n new x y, In y (kids (rewire g n new) x) -> x <> new /\ (In y (kids g x) \/ y = new).
Proof.
  intros g n new x y J. simpl in J. destruct (x =? new) eqn:E; [destruct J|]. apply Nat.eqb_neq in E. split; [exact E|]. apply in_flat_map in J as (z & A & B).
  destruct (z =? n) eqn:Z; [apply Nat.eqb_eq in Z; subst z; destruct B as [<-|[<-|[]]]; auto|destruct B as [<-|[]]; auto].
Qed.
Lemma kids_kept : forall g n new x y, x <> new -> In y (kids g x) -> In y (kids (rewire g n new) x).
Proof.
  intros g n new x y N J. simpl. apply Nat.eqb_neq in N. rewrite N. apply in_flat_map. exists y. split; [exact J|]. destruct (y =? n) eqn:E; [apply Nat.eqb_eq in E; subst; left; reflexivity|left; reflexivity].
Qed.
Lemma ins_rewire : forall g n new x y, In y (ins (rewire g n new) x) -> x <> new /\ (In y (ins g x) \/ y = new).
Proof.
  intros g n new x y J. simpl in J. destruct (x =? new) eqn:E; [destruct J|]. apply Nat.eqb_neq in E. split; [exact E|]. apply in_map_iff in J as (z & A & B). destruct (z =? n); subst; auto.
Qed.
Lemma valid_rewire : forall g n new, valid g -> In n (nodes g) -> ~ In new (nodes g) -> valid (rewire g n new).
Proof.
  intros g n new V JN NN. assert (NE : new <> n) by (intros ->; contradiction). constructor.
  - intros x y J K. apply kids_rewire in K as (XN & K). simpl in J. destruct J as [<-|J]; [contradiction|]. simpl. destruct K as [K| ->]; [right; eapply v_kids; eauto|left; reflexivity].
  - intros a b. simpl.
    assert (NI : ~ In new (ins g b)) by (intros J; apply (link_iff g V) in J; apply (v_outs g V) in J as (J & _); contradiction).
    assert (NO : forall x, ~ In new (outs g x)) by (intros x J; apply (v_outs g V) in J as (_ & J); contradiction).
    destruct (a =? new) eqn:A.
    + apply Nat.eqb_eq in A. subst a. destruct (b =? new) eqn:B.
      * apply Nat.eqb_eq in B. subst b. apply (count_occ_not_In Nat.eq_dec), NO.
      * rewrite count_map_new by exact NI. apply (v_links g V).
    + apply Nat.eqb_neq in A. destruct (a =? n) eqn:AN.
      * apply Nat.eqb_eq in AN. subst a. destruct (b =? new); [reflexivity|]. rewrite count_map_old by exact NE. reflexivity.
      * apply Nat.eqb_neq in AN. destruct (b =? new) eqn:B.
        -- apply Nat.eqb_eq in B. subst b. apply (count_occ_not_In Nat.eq_dec), NO.
        -- rewrite count_map_other by auto. apply (v_links g V).
  - intros a b. simpl. destruct (a =? new) eqn:A.
    + apply Nat.eqb_eq in A. subst a. intros J. apply (v_outs g V) in J. split; [left; reflexivity|right; apply J].
    + destruct (a =? n) eqn:AN; [intros []|]. intros J. apply (v_outs g V) in J. tauto.
  - destruct (v_acyclic g V) as (rank & R). exists (fun x => if x =? new then rank n else rank x). intros a b. simpl.
    assert (B : forall x, In b (outs g x) -> b <> new) by (intros x J ->; apply (v_outs g V) in J as (_ & J); contradiction).
    destruct (a =? new) eqn:A.
    + intros J. pose proof (B n J) as BN. apply Nat.eqb_neq in BN. rewrite BN. auto.
    + destruct (a =? n) eqn:AN; [intros []|]. intros J. pose proof (B a J) as BN. apply Nat.eqb_neq in BN. rewrite BN. auto.
  - intros m. simpl. destruct (m =? new) eqn:E; [discriminate|]. apply Nat.eqb_neq in E. intros [->|J] M; [contradiction|]. destruct (v_modifier g V m J M) as (A & B). rewrite map_length, B. auto.
Qed.
Lemma near_rewire : forall g n new x y, x <> new -> near (rewire g n new) x y -> near g x y \/ y = new.
Proof.
  intros g n new x y N [J|[J|J]].
  - apply kids_rewire in J as (_ & [J|J]); [left; left; exact J|right; exact J].
  - apply ins_rewire in J as (_ & [J|J]); [left; right; left; exact J|right; exact J].
  - simpl in J. apply Nat.eqb_neq in N. rewrite N in J. destruct (x =? n); [destruct J|]. left; right; right; exact J.
Qed.

(** ** Chains *)
Lemma target_more : forall g f f' n r, target g f n = Some r -> f <= f' -> target g f' n = Some r.
Proof.
  induction f as [|f IH]; intros f' n r E L; [discriminate|]. destruct f' as [|f']; [lia|]. simpl in *. destruct (modifier g n); [|exact E]. destruct (ins g n) as [|p [|q l]]; auto. apply IH; [exact E|lia].
Qed.
Lemma target_loads : forall g, valid g -> grounded g -> forall m, In m (nodes g) -> modifier g m = true -> exists f t, target g f m = Some (Some t) /\ loads g t = true.
Proof.
  intros g V G. destruct (v_acyclic g V) as (rank & R).
  assert (W : forall k m, rank m < k -> In m (nodes g) -> modifier g m = true -> exists f t, target g f m = Some (Some t) /\ loads g t = true).
  { induction k as [|k IH]; intros m L J M; [lia|]. destruct (v_modifier g V m J M) as (E & _). destruct (ins g m) as [|p [|q l]] eqn:I; try discriminate.
    assert (LK : In m (outs g p)) by (apply (link_iff g V); rewrite I; left; reflexivity). specialize (R p m LK). pose proof (v_outs g V p m LK) as (JP & _).
    destruct (modifier g p) eqn:MP.
    - destruct (IH p) as (f & t & T & LT); [lia|exact JP|exact MP|]. exists (S f), t. simpl. rewrite M, I. auto.
    - exists 2, p. simpl. rewrite M, I, MP. split; [reflexivity|]. destruct (G m p J M); [rewrite I; left; reflexivity|congruence|assumption]. }
  intros m J M. apply (W (S (rank m))); auto.
Qed.
Lemma resolve_more : forall f f' fresh g visited q r, resolve f fresh g visited q = Some r -> f <= f' -> resolve f' fresh g visited q = Some r.
Proof.
  induction f as [|f IH]; intros f' fresh g visited q r E L; destruct q as [|n q]; simpl in E.
  - destruct f'; exact E.
  - discriminate.
  - destruct f'; exact E.
  - destruct f' as [|f']; [lia|]. simpl. destruct (negb (mem n (nodes g)) || mem n visited); [apply IH; [exact E|lia]|].
    destruct (verify g n); try (apply IH; [exact E|lia]).
    destruct (target g f n) as [t|] eqn:T; [|discriminate]. rewrite (target_more g f f' n t T) by lia. destruct (applicable g t); (apply IH; [exact E|lia]).
Qed.

(** ** The loop *)
Section Loop.
Variable g0 : graph.
Variable base : nat.
Variable entries : list nat.
Hypothesis V0 : valid g0.
Hypothesis U0 : used_once g0.
Hypothesis G0 : grounded g0.
Hypothesis B0 : forall n, In n (nodes g0) -> n < base.
Hypothesis E0 : forall n, In n entries -> In n (nodes g0).

Record loop (fresh : nat) (g : graph) (visited q : list nat) : Prop := {
  w_valid : valid g;
  w_fresh : base <= fresh /\ forall x, In x (nodes g) -> x < fresh;
  w_near : forall x y, In x visited \/ (base <= x /\ In x (nodes g)) -> near g x y -> In y visited \/ In y q \/ base <= y;
  w_seen : forall x, In x visited \/ In x q -> In x (nodes g);
  w_entries : forall n, In n entries -> In n visited \/ In n q;
  w_new : forall x, In x (nodes g) -> base <= x -> modifier g x = false;
  w_use : forall m, In m (nodes g0) -> ~ In m visited -> outs g m = outs g0 m;
  w_idle : forall m n, In m visited -> modifier g m = true -> In n (outs g m) -> modifier g n = true;
  w_ground : grounded g;
  w_kids : forall x y, In x (nodes g0) -> In y (kids g0 x) -> In y (kids g x);
  w_nodes : forall x, In x (nodes g0) -> In x (nodes g);
  w_old : forall x, In x (nodes g) -> In x (nodes g0) \/ base <= x;
  w_mods : forall x, In x (nodes g0) -> modifier g x = modifier g0 x;
  w_outs : forall x, In x (nodes g0) -> modifier g0 x = false -> outs g x = outs g0 x;
  w_done : forall m c, In m visited -> In m (nodes g0) -> modifier g0 m = true -> outs g0 m = [c] -> modifier g0 c = false ->
           exists new, In new (nodes g) /\ base <= new /\ outs g new = [c] /\ loads g new = true;
}.
Lemma loop_start : loop base g0 [] entries.
Proof.
  constructor; auto.
  - intros x y [[]|(L & J)]. specialize (B0 x J). lia.
  - intros x [[]|J]. auto.
  - intros x J L. specialize (B0 x J). lia.
  - intros m n [].
Qed.
Lemma skip_step : forall fresh g visited n q, loop fresh g visited (n :: q) -> negb (mem n (nodes g)) || mem n visited = true -> In n visited /\ loop fresh g visited q.
Proof.
  intros fresh g visited n q L S. destruct L as [VG FR NR SE EN NW US ID GR KD ND OL MD OT DN].
  assert (C : In n visited).
  { apply orb_true_iff in S as [S|S]; [|now apply mem_iff]. exfalso. apply negb_true_iff, mem_false in S. apply S, SE. right; left; reflexivity. }
  split; [exact C|]. constructor; auto.
  - intros x y J K. destruct (NR x y J K) as [A|[[<-|A]|A]]; auto.
  - intros x [J|J]; apply SE; [left; exact J|right; right; exact J].
  - intros x J. destruct (EN x J) as [A|[<-|A]]; auto.
Qed.
Definition push (g : graph) (visited : list nat) (n : nat) : list nat :=
  filter (fun m => negb (mem m visited)) (kids g n) ++ filter (fun m => negb (mem m visited)) (ins g n ++ outs g n).
Lemma push_iff : forall g visited n y, In y (push g visited n) <-> near g n y /\ ~ In y visited.
Proof. intros g visited n y. unfold push, near. rewrite in_app_iff, !filter_In, !negb_true_iff, !mem_false, in_app_iff. tauto. Qed.

(** A node that stays as it is. *)
Lemma keep_step : forall fresh g visited n q, loop fresh g visited (n :: q) -> ~ In n visited ->
  (modifier g n = true -> forall c, In c (outs g n) -> modifier g c = true) ->
  loop fresh g (n :: visited) (q ++ push g visited n).
Proof.
  intros fresh g visited n q L NV MK. destruct L as [VG FR NR SE EN NW US ID GR KD ND OL MD OT DN].
  pose proof (SE n (or_intror (or_introl eq_refl))) as JN.
  constructor; auto.
  - intros x y J K.
    assert (C : x = n \/ In x visited \/ (base <= x /\ In x (nodes g))) by (destruct J as [[->|J]|J]; auto).
    destruct C as [->|C].
    + destruct (in_dec Nat.eq_dec y visited) as [Y|Y]; [left; right; exact Y|]. right; left. apply in_app_iff. right. apply push_iff. auto.
    + destruct (NR x y C K) as [A|[[<-|A]|A]]; [left; right; exact A|left; left; reflexivity|right; left; apply in_app_iff; auto|auto].
  - intros x [[<-|J]|J]; auto. apply in_app_iff in J as [J|J]; [apply SE; right; right; exact J|]. apply push_iff in J as (J & _). exact (near_nodes g VG n x JN J).
  - intros x J. destruct (EN x J) as [A|[<-|A]]; [left; right; exact A|left; left; reflexivity|right; apply in_app_iff; auto].
  - intros m J K. apply US; [exact J|]. intros X. apply K. right; exact X.
  - intros m c [<-|J] M I; [auto|eapply ID; eauto].
  - intros m c [<-|J] J0 M O C; [|eapply DN; eauto]. exfalso. rewrite <- (US n J0 NV) in O. specialize (MK (eq_trans (MD n J0) M) c). rewrite O in MK. specialize (MK (or_introl eq_refl)).
    assert (JC : In c (nodes g0)). { rewrite (US n J0 NV) in O. apply (v_outs g0 V0 n c). rewrite O. left; reflexivity. }
    rewrite (MD c JC) in MK. congruence.
Qed.
(** A node that is resolved. *)
Lemma rewire_step : forall fresh g visited n c q, loop fresh g visited (n :: q) -> ~ In n visited ->
  modifier g n = true -> outs g n = [c] -> modifier g c = false ->
  loop (S fresh) (rewire g n fresh) (n :: visited) (q ++ push g visited n).
Proof.
  intros fresh g visited n c q L NV M O MC. destruct L as [VG (BF & FR) NR SE EN NW US ID GR KD ND OL MD OT DN].
  pose proof (SE n (or_intror (or_introl eq_refl))) as JN.
  assert (FN : ~ In fresh (nodes g)) by (intros J; specialize (FR fresh J); lia).
  assert (NF : n <> fresh) by (intros ->; contradiction).
  assert (JC : In c (nodes g)) by (apply (v_outs g VG n c); rewrite O; left; reflexivity).
  assert (VF : ~ In fresh visited) by (intros J; apply FN, SE; auto).
  assert (N0 : In n (nodes g0)). { destruct (OL n JN) as [A|A]; [exact A|]. rewrite (NW n JN A) in M. discriminate. }
  assert (NEQ : forall x, In x (nodes g) -> x =? fresh = false) by (intros x J; apply Nat.eqb_neq; intros ->; contradiction).
  assert (PUSHC : In c visited \/ In c (push g visited n)).
  { destruct (in_dec Nat.eq_dec c visited) as [Y|Y]; [left; exact Y|]. right. apply push_iff. split; [right; right; rewrite O; left; reflexivity|exact Y]. }
  constructor.
  - now apply valid_rewire.
  - split; [lia|]. intros x [<-|J]; [lia|]. specialize (FR x J). lia.
  - intros x y J K. destruct (Nat.eq_dec x fresh) as [->|XF].
    + destruct K as [K|[K|K]]; [apply kids_rewire in K as (K & _); contradiction|apply ins_rewire in K as (K & _); contradiction|].
      simpl in K. rewrite Nat.eqb_refl, O in K. destruct K as [<-|[]]. destruct PUSHC as [P|P]; [left; right; exact P|right; left; apply in_app_iff; auto].
    + apply near_rewire in K; [|exact XF]. destruct K as [K| ->]; [|auto].
      assert (C : x = n \/ In x visited \/ (base <= x /\ In x (nodes g))).
      { destruct J as [[->|J]|(J & [<-|J2])]; auto. contradiction. }
      destruct C as [->|C].
      * destruct (in_dec Nat.eq_dec y visited) as [Y|Y]; [left; right; exact Y|]. right; left. apply in_app_iff. right. apply push_iff. auto.
      * destruct (NR x y C K) as [A|[[<-|A]|A]]; [left; right; exact A|left; left; reflexivity|right; left; apply in_app_iff; auto|auto].
  - intros x J. simpl. right. destruct J as [[<-|J]|J]; auto. apply in_app_iff in J as [J|J]; [apply SE; right; right; exact J|]. apply push_iff in J as (J & _). exact (near_nodes g VG n x JN J).
  - intros x J. destruct (EN x J) as [A|[<-|A]]; [left; right; exact A|left; left; reflexivity|right; apply in_app_iff; auto].
  - intros x [<-|J] B; simpl; [now rewrite Nat.eqb_refl|]. rewrite (NEQ x J). auto.
  - intros m J K. simpl. rewrite (NEQ m (ND m J)). destruct (m =? n) eqn:E; [apply Nat.eqb_eq in E; subst; exfalso; apply K; left; reflexivity|]. apply US; [exact J|]. intros X. apply K. right; exact X.
  - intros m y J MM I. simpl in MM, I |- *. destruct (m =? fresh) eqn:E; [discriminate|]. destruct (m =? n) eqn:E2; [destruct I|].
    destruct J as [<-|J]; [rewrite Nat.eqb_refl in E2; discriminate|]. rewrite (NEQ y (proj2 (v_outs g VG m y I))). eapply ID; eauto.
  - intros m p J MM I. simpl in J, MM. apply ins_rewire in I as (MF & I). simpl. apply Nat.eqb_neq in MF. rewrite MF in MM. destruct J as [<-|J]; [rewrite Nat.eqb_refl in MF; discriminate|].
    destruct (p =? fresh) eqn:E; [auto|]. destruct I as [I|I]; [|apply Nat.eqb_neq in E; contradiction]. eapply GR; eauto.
  - intros x y J K. apply kids_kept; [|auto]. intros ->. apply FN. auto.
  - intros x J. right. auto.
  - intros x [<-|J]; [auto|auto].
  - intros x J. simpl. rewrite (NEQ x (ND x J)). auto.
  - intros x J F. simpl. rewrite (NEQ x (ND x J)). destruct (x =? n) eqn:E; [|auto]. apply Nat.eqb_eq in E. subst x. rewrite (MD n J) in M. congruence.
  - intros m d J J0 M0 O0 D0. destruct (Nat.eq_dec m n) as [->|MN].
    + exists fresh. simpl. rewrite !Nat.eqb_refl. rewrite <- O0, <- (US n J0 NV). auto.
    + destruct J as [<-|J]; [contradiction|]. destruct (DN m d J J0 M0 O0 D0) as (new & A & B & C & D). exists new. simpl. rewrite (NEQ new A).
      split; [right; exact A|]. split; [exact B|]. split; [|exact D]. destruct (new =? n) eqn:E; [|exact C]. apply Nat.eqb_eq in E. subst new. specialize (B0 n N0). lia.
Qed.

(** Work that is left. *)
Definition weigh (g : graph) (visited : list nat) (n : nat) : nat := if mem n visited then 0 else if modifier g n then 2 else 1.
Definition weight (g : graph) (visited : list nat) : nat := list_sum (map (weigh g visited) (nodes g)).
Lemma sum_le : forall (f h : nat -> nat) l, (forall x, In x l -> f x <= h x) -> list_sum (map f l) <= list_sum (map h l).
Proof. intros f h. induction l as [|x l IH]; intros H; [constructor|]. simpl. specialize (H x (or_introl eq_refl)) as Hx. specialize (IH (fun y J => H y (or_intror J))). lia. Qed.
Lemma sum_lt : forall (f h : nat -> nat) l n, In n l -> (forall x, In x l -> f x <= h x) -> forall d, f n + d <= h n -> list_sum (map f l) + d <= list_sum (map h l).
Proof.
  intros f h. induction l as [|x l IH]; intros n J H d L; [destruct J|]. simpl. destruct J as [->|J].
  - pose proof (sum_le f h l (fun y K => H y (or_intror K))). lia.
  - specialize (IH n J (fun y K => H y (or_intror K)) d L). specialize (H x (or_introl eq_refl)). lia.
Qed.
Lemma weigh_less : forall g visited n x, weigh g (n :: visited) x <= weigh g visited x.
Proof.
  intros g visited n x. unfold weigh. assert (E : mem x (n :: visited) = (x =? n) || mem x visited) by reflexivity. rewrite E. destruct (x =? n), (mem x visited), (modifier g x); simpl; lia.
Qed.
Lemma weigh_at : forall g visited n, weigh g (n :: visited) n = 0.
Proof. intros g visited n. unfold weigh. assert (E : mem n (n :: visited) = true) by (apply mem_iff; left; reflexivity). now rewrite E. Qed.
Lemma weight_keep : forall g visited n, In n (nodes g) -> ~ In n visited -> weight g (n :: visited) < weight g visited.
Proof.
  intros g visited n J N. unfold weight. cut (list_sum (map (weigh g (n :: visited)) (nodes g)) + 1 <= list_sum (map (weigh g visited) (nodes g))); [lia|]. apply (sum_lt _ _ _ n J (fun x _ => weigh_less g visited n x) 1). rewrite weigh_at. unfold weigh. apply mem_false in N. rewrite N. destruct (modifier g n); lia.
Qed.
Lemma weight_rewire : forall g visited n new, In n (nodes g) -> ~ In n visited -> modifier g n = true -> ~ In new (nodes g) -> weight (rewire g n new) (n :: visited) < weight g visited.
Proof.
  intros g visited n new J N M F. unfold weight. cbn [nodes rewire map list_sum].
  assert (A : list_sum (map (weigh (rewire g n new) (n :: visited)) (nodes g)) + 2 <= list_sum (map (weigh g visited) (nodes g))).
  { apply (sum_lt _ _ _ n J).
    - intros x K. eapply Nat.le_trans; [|apply (weigh_less g visited n)]. unfold weigh. simpl. destruct (x =? new) eqn:E; [apply Nat.eqb_eq in E; subst; contradiction|]. lia.
    - rewrite weigh_at. unfold weigh. apply mem_false in N. rewrite N, M. lia. }
  assert (B : weigh (rewire g n new) (n :: visited) new <= 1) by (unfold weigh; simpl; rewrite Nat.eqb_refl; destruct (_ || _); lia).
  change (list_sum (weigh (rewire g n new) (n :: visited) new :: map (weigh (rewire g n new) (n :: visited)) (nodes g))) with (weigh (rewire g n new) (n :: visited) new + list_sum (map (weigh (rewire g n new) (n :: visited)) (nodes g))). lia.
Qed.
Lemma loop_ends : forall w k fresh g visited q, loop fresh g visited q -> weight g visited <= w -> length q <= k ->
  exists fuel g' fresh' visited', resolve fuel fresh g visited q = Some g' /\ loop fresh' g' visited' [].
Proof.
  induction w as [w IHw] using lt_wf_ind. induction k as [|k IHk]; intros fresh g visited q L W K.
  - destruct q; [|simpl in K; lia]. exists 0, g, fresh, visited. split; [reflexivity|exact L].
  - destruct q as [|n q]; [exists 0, g, fresh, visited; split; [reflexivity|exact L]|].
    destruct (negb (mem n (nodes g)) || mem n visited) eqn:SK.
    + destruct (skip_step _ _ _ _ _ L SK) as (_ & L2). destruct (IHk fresh g visited q L2 W) as (f & g' & fr & vs & E & F); [simpl in K; lia|].
      exists (S f), g', fr, vs. split; [|exact F]. simpl. rewrite SK. exact E.
    + pose proof SK as SK2. apply orb_false_iff in SK2 as (_ & NV). apply mem_false in NV. pose proof (w_seen _ _ _ _ L n (or_intror (or_introl eq_refl))) as JN.
      destruct (modifier g n) eqn:M.
      * assert (N0 : In n (nodes g0)). { destruct (w_old _ _ _ _ L n JN) as [A|A]; [exact A|]. rewrite (w_new _ _ _ _ L n JN A) in M. discriminate. }
        pose proof (w_use _ _ _ _ L n N0 NV) as O. pose proof (U0 n N0 (eq_trans (eq_sym (w_mods _ _ _ _ L n N0)) M)) as LEN. rewrite <- O in LEN.
        destruct (outs g n) as [|c [|d l]] eqn:ON; try discriminate. clear O LEN. destruct (modifier g c) eqn:MC.
        -- assert (VE : verify g n = NotInitialModifier) by (unfold verify; rewrite M, ON, MC; reflexivity).
           assert (L2 : loop fresh g (n :: visited) (q ++ push g visited n)) by (apply keep_step; auto; intros _ x; rewrite ON; intros [<-|[]]; exact MC).
           destruct (IHw (weight g (n :: visited)) (Nat.lt_le_trans _ _ _ (weight_keep g visited n JN NV) W) _ fresh g (n :: visited) _ L2 (le_n _) (le_n _)) as (f & g' & fr & vs & E & F).
           exists (S f), g', fr, vs. split; [|exact F]. cbn [resolve]. rewrite SK, VE. exact E.
        -- assert (VE : verify g n = VOk) by (unfold verify; rewrite M, ON, MC; reflexivity).
           pose proof (rewire_step fresh g visited n c q L NV M ON MC) as L2.
           assert (FN : ~ In fresh (nodes g)) by (intros J; pose proof (proj2 (w_fresh _ _ _ _ L) fresh J); lia).
           destruct (IHw (weight (rewire g n fresh) (n :: visited)) (Nat.lt_le_trans _ _ _ (weight_rewire g visited n fresh JN NV M FN) W) _ (S fresh) (rewire g n fresh) (n :: visited) _ L2 (le_n _) (le_n _)) as (f & g' & fr & vs & E & F).
           destruct (target_loads g (w_valid _ _ _ _ L) (w_ground _ _ _ _ L) n JN M) as (ft & t & T & LT).
           exists (S (f + ft)), g', fr, vs. split; [|exact F]. cbn [resolve]. rewrite SK, VE, (target_more g ft (f + ft) n (Some t) T) by lia. cbn [applicable]. rewrite LT.
           apply (resolve_more f); [exact E|lia].
      * assert (VE : verify g n = NotModifier) by (unfold verify; rewrite M; reflexivity).
        assert (L2 : loop fresh g (n :: visited) (q ++ push g visited n)) by (apply keep_step; auto; congruence).
        destruct (IHw (weight g (n :: visited)) (Nat.lt_le_trans _ _ _ (weight_keep g visited n JN NV) W) _ fresh g (n :: visited) _ L2 (le_n _) (le_n _)) as (f & g' & fr & vs & E & F).
        exists (S f), g', fr, vs. split; [|exact F]. cbn [resolve]. rewrite SK, VE. exact E.
Qed.
Lemma end_seen : forall fresh g visited n, loop fresh g visited [] -> reach g entries n -> In n visited \/ (base <= n /\ In n (nodes g)).
Proof.
  intros fresh g visited n L R. induction R as [n J|m n R IH NR].
  - destruct (w_entries _ _ _ _ L n J) as [A|[]]. auto.
  - destruct (w_near _ _ _ _ L m n IH NR) as [A|[[]|A]]; auto. right. split; [exact A|].
    assert (JM : In m (nodes g)) by (destruct IH as [I|(_ & I)]; [apply (w_seen _ _ _ _ L); auto|exact I]).
    exact (near_nodes g (w_valid _ _ _ _ L) m n JM NR).
Qed.
Lemma end_idle : forall fresh g visited, loop fresh g visited [] -> idle g entries.
Proof.
  intros fresh g visited L m n R M J. destruct (end_seen _ _ _ m L R) as [A|(A & B)]; [eapply w_idle; eauto|]. rewrite (w_new _ _ _ _ L m B A) in M. discriminate.
Qed.
Lemma end_descends : forall fresh g visited n, loop fresh g visited [] -> descends g0 entries n -> In n (nodes g0) /\ reach g entries n.
Proof.
  intros fresh g visited n L D. induction D as [n J|m n D (IH1 & IH2) K]; [split; [auto|constructor; exact J]|]. split; [eapply v_kids; eauto|]. eapply r_step; [exact IH2|]. left. eapply w_kids; eauto.
Qed.
Lemma pass_ends : exists fuel0 g' gone, (forall fuel, fuel0 <= fuel -> run fuel base g0 entries = Some (g', Ok gone)) /\ NoDup gone /\
  (forall n, In n gone <-> modifier g' n = true /\ reach g' entries n) /\
  (forall n, descends g0 entries n -> modifier g0 n = true -> In n gone) /\
  (forall n, In n (nodes g0) -> modifier g0 n = false -> In n (nodes g') /\ ~ In n gone /\ outs g' n = outs g0 n) /\
  (forall m c, descends g0 entries m -> modifier g0 m = true -> outs g0 m = [c] -> modifier g0 c = false ->
     exists new, In new (nodes g') /\ ~ In new (nodes g0) /\ ~ In new gone /\ loads g' new = true /\ outs g' new = [c]).
Proof.
  destruct (loop_ends (weight g0 []) (length entries) base g0 [] entries loop_start (le_n _) (le_n _)) as (f & g' & fr & vs & E & L).
  assert (EN : forall n, In n entries -> In n (nodes g')) by (intros n J; apply (w_nodes _ _ _ _ L); auto).
  destruct (cleaned g' (w_valid _ _ _ _ L) entries (end_idle _ _ _ L) EN) as (f2 & gone & C & ND & G).
  exists (f + f2), g', gone. split; [|split; [exact ND|split; [exact G|split; [|split]]]].
  - intros fuel LE. unfold run. rewrite (resolve_more f fuel _ _ _ _ _ E) by lia. rewrite C by lia. reflexivity.
  - intros n D M. destruct (end_descends _ _ _ _ L D) as (A & B). apply G. rewrite (w_mods _ _ _ _ L n A). auto.
  - intros n J M. split; [apply (w_nodes _ _ _ _ L); exact J|]. split; [|apply (w_outs _ _ _ _ L); auto]. intros K. apply G in K as (K & _). rewrite (w_mods _ _ _ _ L n J) in K. congruence.
  - intros m c D M O MC. destruct (end_descends _ _ _ _ L D) as (A & B).
    destruct (end_seen _ _ _ m L B) as [S1|(S1 & _)]; [|specialize (B0 m A); lia].
    destruct (w_done _ _ _ _ L m c S1 A M O MC) as (new & N1 & N2 & N3 & N4). exists new. split; [exact N1|]. split; [intros J; specialize (B0 new J); lia|].
    split; [|auto]. intros K. apply G in K as (K & _). rewrite (w_new _ _ _ _ L new N1 N2) in K. discriminate.
Qed.
End Loop.
