(** Lemmas on regions: uses of wires, ranks, reconnecting, removing. *)
From Coq Require Import List Bool Arith Lia.
From Verif Require Import BorrowSpec BorrowModel.
Import ListNotations.

Section Graph.
Variable O : Type.
Notation graph := (graph O).
Notation node := (node O).

(** ** Finding nodes *)
Lemma find_node_In : forall (g : graph) n m, find_node O g n = Some m -> In m g /\ nid m = n.
Proof. intros g n m E. apply find_some in E. destruct E as [H E]. apply Nat.eqb_eq in E. auto. Qed.
Lemma In_find_node : forall (g : graph) m, NoDup (map nid g) -> In m g -> find_node O g (nid m) = Some m.
Proof.
  induction g as [|x g IH]; intros m N H; [destruct H|]. simpl in N. inversion N as [|? ? Nx Ng]; subst.
  unfold find_node. simpl. destruct (Nat.eqb (nid x) (nid m)) eqn:E.
  - apply Nat.eqb_eq in E. destruct H as [->|H]; [reflexivity|]. exfalso. apply Nx. rewrite E. apply in_map. assumption.
  - destruct H as [->|H]; [rewrite Nat.eqb_refl in E; discriminate|]. apply IH; assumption.
Qed.
Lemma node_unique : forall (g : graph) a b, NoDup (map nid g) -> In a g -> In b g -> nid a = nid b -> a = b.
Proof. intros g a b N Ha Hb E. apply In_find_node in Ha; [|assumption]. apply In_find_node in Hb; [|assumption]. rewrite E in Ha. congruence. Qed.

(** ** Uses *)
Lemma uses_app : forall (a b : graph) w, uses (a ++ b) w = uses a w + uses b w.
Proof. intros a b w. unfold uses. rewrite flat_map_app. apply count_occ_app. Qed.
Lemma uses_cons : forall m (g : graph) w, uses (m :: g) w = count_occ wire_dec (ins m) w + uses g w.
Proof. intros m g w. unfold uses. simpl. apply count_occ_app. Qed.
Lemma uses_in : forall (g : graph) m w, In m g -> count_occ wire_dec (ins m) w <= uses g w.
Proof. intros g m w H. apply in_split in H. destruct H as (a & b & ->). rewrite uses_app, uses_cons. lia. Qed.
Lemma uses_two : forall (g : graph) a b w, NoDup (map nid g) -> In a g -> In b g -> nid a <> nid b ->
  count_occ wire_dec (ins a) w + count_occ wire_dec (ins b) w <= uses g w.
Proof.
  intros g a b w N Ha Hb Ne. apply in_split in Ha. destruct Ha as (x & y & ->). rewrite uses_app, uses_cons.
  apply in_app_or in Hb. destruct Hb as [Hb|[Hb|Hb]]; [|congruence|]; pose proof (uses_in _ _ w Hb); lia.
Qed.
(** The only user of a wire used once. *)
Lemma sole_user : forall (g : graph) w n rest m, NoDup (map nid g) -> uses g w = 1 -> In n g -> ins n = w :: rest ->
  In m g -> In w (ins m) -> m = n /\ ~ In w rest.
Proof.
  intros g w n rest m N U Hn En Hm Hw.
  assert (C : count_occ wire_dec (ins n) w = Datatypes.S (count_occ wire_dec rest w)) by (rewrite En; simpl; destruct (wire_dec w w); congruence).
  pose proof (uses_in g n w Hn) as L. assert (Z : count_occ wire_dec rest w = 0) by lia.
  split; [|apply count_occ_not_In in Z; assumption].
  destruct (Nat.eq_dec (nid m) (nid n)) as [E|E]; [apply (node_unique g); assumption|]. exfalso.
  pose proof (uses_two g m n w N Hm Hn E). apply (count_occ_In wire_dec) in Hw. lia.
Qed.
Lemma ports_of_length : forall w l p, length (ports_of w p l) = count_occ wire_dec l w.
Proof. intros w l. induction l as [|x l IH]; intro p; simpl; [reflexivity|]. destruct (wire_dec x w); simpl; rewrite IH; reflexivity. Qed.
Lemma ports_of_nth : forall w l p q, In q (ports_of w p l) -> p <= q /\ nth_error l (q - p) = Some w.
Proof.
  intros w l. induction l as [|x l IH]; intros p q H; [destruct H|]. simpl in H. destruct (wire_dec x w) as [->|].
  - destruct H as [<-|H]; [rewrite Nat.sub_diag; auto|]. apply IH in H. destruct H as [L E]. split; [lia|]. replace (q - p) with (Datatypes.S (q - Datatypes.S p)) by lia. exact E.
  - apply IH in H. destruct H as [L E]. split; [lia|]. replace (q - p) with (Datatypes.S (q - Datatypes.S p)) by lia. exact E.
Qed.
Lemma linked_length : forall (g : graph) w, length (linked_inputs O g w) = uses g w.
Proof.
  intros g w. induction g as [|m g IH]; [reflexivity|]. rewrite uses_cons. unfold linked_inputs in *. simpl. rewrite app_length, map_length, ports_of_length, IH. reflexivity.
Qed.
Lemma single_linked_spec : forall (g : graph) w n p, single_linked_input O g w = Some (n, p) ->
  uses g w = 1 /\ exists m, In m g /\ nid m = n /\ nth_error (ins m) p = Some w.
Proof.
  intros g w n p E. unfold single_linked_input in E. destruct (linked_inputs O g w) as [|x [|y l]] eqn:L; try discriminate. injection E as ->.
  split; [rewrite <- linked_length, L; reflexivity|].
  assert (H : In (n, p) (linked_inputs O g w)) by (rewrite L; left; reflexivity). unfold linked_inputs in H. apply in_flat_map in H. destruct H as (m & Hm & H).
  apply in_map_iff in H. destruct H as (q & E & Hq). injection E as E ->. exists m. apply ports_of_nth in Hq. rewrite Nat.sub_0_r in Hq. tauto.
Qed.
Lemma single_linked_one : forall (g : graph) w, uses g w = 1 -> exists x, linked_inputs O g w = [x] /\ single_linked_input O g w = Some x.
Proof.
  intros g w U. unfold single_linked_input. rewrite <- linked_length in U. destruct (linked_inputs O g w) as [|x [|y l]]; simpl in U; try lia. exists x. auto.
Qed.

(** ** Ranks *)
Fixpoint rank (g : graph) (n : nat) : nat :=
  match g with [] => 0 | m :: g => if Nat.eqb (nid m) n then 0 else Datatypes.S (rank g n) end.
Lemma rank_app_in : forall a b n, In n (map nid a) -> rank (a ++ b) n < length a.
Proof.
  induction a as [|m a IH]; intros b n H; [destruct H|]. simpl. destruct (Nat.eqb (nid m) n) eqn:E; [lia|].
  destruct H as [H|H]; [apply Nat.eqb_neq in E; congruence|]. specialize (IH b n H). lia.
Qed.
Lemma rank_app_out : forall a b n, ~ In n (map nid a) -> rank (a ++ b) n = length a + rank b n.
Proof.
  induction a as [|m a IH]; intros b n H; [reflexivity|]. simpl. destruct (Nat.eqb (nid m) n) eqn:E; [apply Nat.eqb_eq in E; exfalso; apply H; left; assumption|].
  rewrite IH; [lia|]. intro K. apply H. right. assumption.
Qed.
Definition ranked (g : graph) : Prop :=
  NoDup (map nid g) /\ forall m w, In m g -> In w (ins m) -> produced g w /\ rank g (fst w) < rank g (nid m).
Lemma topological_ranked : forall g : graph, topological g <-> ranked g.
Proof.
  intro g. split; intros [N H]; (split; [assumption|]).
  - intros m w Hm Hw. apply in_split in Hm. destruct Hm as (a & b & ->). destruct (H a m b eq_refl w Hw) as (x & Hx & Ex & Lx).
    split; [exists x; split; [apply in_or_app; left; assumption|auto]|].
    assert (Nm : ~ In (nid m) (map nid a)).
    { rewrite map_app in N. simpl in N. apply NoDup_remove_2 in N. intro K. apply N. apply in_or_app. left. assumption. }
    rewrite (rank_app_out a _ (nid m) Nm). pose proof (rank_app_in a (m :: b) (fst w)) as R. simpl. rewrite Nat.eqb_refl.
    assert (In (fst w) (map nid a)) by (rewrite <- Ex; apply in_map; assumption). specialize (R H0). lia.
  - intros a m b -> w Hw. destruct (H m w) as [(x & Hx & Ex & Lx) R]; [apply in_or_app; right; left; reflexivity|assumption|].
    exists x. split; [|auto]. apply in_app_or in Hx. destruct Hx as [Hx|Hx]; [assumption|]. exfalso.
    assert (Nm : ~ In (nid m) (map nid a)).
    { rewrite map_app in N. simpl in N. apply NoDup_remove_2 in N. intro K. apply N. apply in_or_app. left. assumption. }
    assert (Nx : ~ In (fst w) (map nid a)).
    { rewrite <- Ex. rewrite map_app in N. intro K. apply (in_map nid) in Hx. clear -N K Hx. induction a as [|y a IH]; [destruct K|]. simpl in N. inversion N as [|? ? N1 N2]; subst.
      destruct K as [K|K]; [apply N1; rewrite K; apply in_or_app; right; assumption|apply IH; assumption]. }
    rewrite (rank_app_out a _ _ Nm), (rank_app_out a _ _ Nx) in R. simpl in R. rewrite Nat.eqb_refl in R. lia.
Qed.
Lemma rank_map : forall (f : node -> node) g n, (forall m, nid (f m) = nid m) -> rank (map f g) n = rank g n.
Proof. intros f g n H. induction g as [|m g IH]; [reflexivity|]. simpl. rewrite H, IH. reflexivity. Qed.
Lemma rank_filter : forall (keep : nat -> bool) (g : graph) a b, keep a = true -> keep b = true -> In a (map nid g) ->
  rank g a < rank g b -> rank (filter (fun m => keep (nid m)) g) a < rank (filter (fun m => keep (nid m)) g) b.
Proof.
  intros keep g. induction g as [|m g IH]; intros a b Ka Kb Ha R; [destruct Ha|]. simpl in R. simpl.
  destruct (Nat.eqb (nid m) a) eqn:Ea.
  - apply Nat.eqb_eq in Ea. rewrite Ea, Ka. simpl. rewrite Ea, Nat.eqb_refl. destruct (Nat.eqb a b) eqn:Eb; [|lia].
    rewrite Ea, Eb in R. lia.
  - destruct (Nat.eqb (nid m) b) eqn:Eb; [lia|].
    assert (Ha' : In a (map nid g)) by (destruct Ha as [Ha|Ha]; [apply Nat.eqb_neq in Ea; congruence|assumption]).
    destruct (keep (nid m)); simpl; [rewrite Ea, Eb|]; [apply -> Nat.succ_lt_mono|]; apply IH; auto; lia.
Qed.

(** ** Reconnecting *)
Definition sub (w w' x : wire) : wire := if wire_dec x w then w' else x.
Definition with_ins (m : node) (l : list wire) : node := {| nid := nid m; knd := knd m; ins := l |}.
Definition redirect (w w' : wire) (g : graph) : graph := map (fun m => with_ins m (map (sub w w') (ins m))) g.
Lemma set_ports : forall src w l pre, fold_left (fun i p => set_nth p src i) (ports_of w (length pre) l) (pre ++ l) = pre ++ map (sub w src) l.
Proof.
  assert (SN : forall pre src x (l : list wire), set_nth (length pre) src (pre ++ x :: l) = pre ++ src :: l).
  { induction pre as [|y pre IH]; intros src x l; [reflexivity|]. simpl. rewrite IH. reflexivity. }
  intros src w l. induction l as [|x l IH]; intro pre; [simpl; rewrite app_nil_r; reflexivity|]. simpl. unfold sub at 1. destruct (wire_dec x w).
  - simpl. rewrite SN. specialize (IH (pre ++ [src])). rewrite app_length in IH. simpl in IH. rewrite Nat.add_1_r, <- !app_assoc in IH. exact IH.
  - specialize (IH (pre ++ [x])). rewrite app_length in IH. simpl in IH. rewrite Nat.add_1_r, <- !app_assoc in IH. exact IH.
Qed.
Definition ports_for (n : nat) (l : list (nat * nat)) : list nat := map snd (filter (fun t => Nat.eqb n (fst t)) l).
Lemma fold_connect_gen : forall src l (g : graph), fold_left (fun g t => connect O src t g) l g =
  map (fun m => with_ins m (fold_left (fun i p => set_nth p src i) (ports_for (nid m) l) (ins m))) g.
Proof.
  intros src l. induction l as [|t l IH]; intro g; simpl.
  - rewrite <- (map_id g) at 1. apply map_ext. intros [n k i]. reflexivity.
  - rewrite IH. unfold connect. rewrite map_map. apply map_ext. intro m. unfold ports_for. simpl. destruct (Nat.eqb (nid m) (fst t)) eqn:E; simpl; rewrite ?E; reflexivity.
Qed.
Lemma fold_connect : forall src w (g : graph), NoDup (map nid g) -> fold_left (fun g t => connect O src t g) (linked_inputs O g w) g = redirect w src g.
Proof.
  intros src w g N. rewrite fold_connect_gen. unfold redirect. apply map_ext_in. intros m Hm. f_equal.
  assert (P : ports_for (nid m) (linked_inputs O g w) = ports_of w 0 (ins m)).
  { assert (Z : forall (x : node) l, nid x <> nid m -> filter (fun t => Nat.eqb (nid m) (fst t)) (map (fun p => (nid x, p)) l) = ([] : list (nat * nat))).
    { intros x l Ne. induction l as [|p l IH]; [reflexivity|]. simpl. destruct (Nat.eqb_spec (nid m) (nid x)); [congruence|exact IH]. }
    assert (Y : forall l, map snd (filter (fun t => Nat.eqb (nid m) (fst t)) (map (fun p => (nid m, p)) l)) = (l : list nat)).
    { intro l. induction l as [|p l IH]; [reflexivity|]. simpl. rewrite Nat.eqb_refl. simpl. rewrite IH. reflexivity. }
    unfold ports_for, linked_inputs. clear -N Hm Z Y. induction g as [|x g IH]; [destruct Hm|]. simpl in N. inversion N as [|? ? N1 N2]; subst.
    simpl. rewrite filter_app, map_app. destruct Hm as [->|Hm].
    - rewrite Y. assert (W : filter (fun t => Nat.eqb (nid m) (fst t)) (flat_map (fun m0 => map (fun p => (nid m0, p)) (ports_of w 0 (ins m0))) g) = []).
      { clear -N1 Z. induction g as [|y g IH]; [reflexivity|]. simpl. rewrite filter_app, Z, IH; [reflexivity|simpl in N1; tauto|]. intro K. apply N1. left. assumption. }
      rewrite W. simpl. apply app_nil_r.
    - rewrite Z; [simpl; apply IH; assumption|]. intro K. apply N1. rewrite K. apply in_map. assumption. }
  rewrite P. apply (set_ports src w (ins m) []).
Qed.
Lemma redirect_ids : forall w w' (g : graph), map nid (redirect w w' g) = map nid g.
Proof. intros w w' g. unfold redirect. rewrite map_map. reflexivity. Qed.
Lemma count_sub : forall w w' x l, w <> w' -> count_occ wire_dec (map (sub w w') l) x =
  if wire_dec x w then 0 else if wire_dec x w' then count_occ wire_dec l w' + count_occ wire_dec l w else count_occ wire_dec l x.
Proof.
  intros w w' x l Ne. induction l as [|y l IH]; simpl.
  - destruct (wire_dec x w); [reflexivity|]. destruct (wire_dec x w'); reflexivity.
  - assert (E : (sub w w' y = w' /\ y = w) \/ (sub w w' y = y /\ y <> w)) by (unfold sub; destruct (wire_dec y w); auto).
    destruct E as [[-> ->]|[-> Hy]]; rewrite IH; clear IH;
      repeat match goal with |- context [wire_dec ?a ?b] => destruct (wire_dec a b) end; subst; try congruence; try lia.
Qed.
Lemma uses_redirect : forall w w' x (g : graph), w <> w' -> uses (redirect w w' g) x =
  if wire_dec x w then 0 else if wire_dec x w' then uses g w' + uses g w else uses g x.
Proof.
  intros w w' x g Ne. induction g as [|m g IH].
  - unfold uses; simpl. destruct (wire_dec x w); [reflexivity|]. destruct (wire_dec x w'); reflexivity.
  - change (redirect w w' (m :: g)) with (with_ins m (map (sub w w') (ins m)) :: redirect w w' g). rewrite !uses_cons, IH. cbn [ins with_ins]. rewrite count_sub by assumption.
    destruct (wire_dec x w); [reflexivity|]. destruct (wire_dec x w'); lia.
Qed.
Lemma remove_ids : forall n (g : graph), NoDup (map nid g) -> NoDup (map nid (remove_node O n g)).
Proof.
  intros n g N. induction g as [|m g IH]; [constructor|]. simpl in N. inversion N as [|? ? N1 N2]; subst. simpl. destruct (negb (Nat.eqb (nid m) n)); [|auto].
  simpl. constructor; [|auto]. intro K. apply N1. apply in_map_iff in K. destruct K as (x & E & Hx). apply filter_In in Hx. rewrite <- E. apply in_map. apply Hx.
Qed.
Lemma remove_absent : forall n (g : graph), ~ In n (map nid g) -> remove_node O n g = g.
Proof.
  intros n g H. induction g as [|m g IH]; [reflexivity|]. simpl. destruct (Nat.eqb_spec (nid m) n) as [E|E]; [exfalso; apply H; left; assumption|]. simpl. f_equal. apply IH. intro K. apply H. right. assumption.
Qed.
Lemma uses_remove : forall n (g : graph) m x, NoDup (map nid g) -> In m g -> nid m = n ->
  uses g x = count_occ wire_dec (ins m) x + uses (remove_node O n g) x.
Proof.
  intros n g m x N Hm <-. apply in_split in Hm. destruct Hm as (a & b & ->). rewrite map_app in N. simpl in N. apply NoDup_remove_2 in N.
  unfold remove_node. rewrite filter_app. simpl. rewrite Nat.eqb_refl. simpl. fold (remove_node O (nid m) a). fold (remove_node O (nid m) b).
  rewrite !remove_absent by (intro K; apply N; apply in_or_app; auto). rewrite !uses_app, uses_cons. lia.
Qed.
Lemma In_redirect : forall w w' (g : graph) m, In m (redirect w w' g) <-> exists m0, In m0 g /\ m = with_ins m0 (map (sub w w') (ins m0)).
Proof. intros w w' g m. unfold redirect. rewrite in_map_iff. split; intros (x & A & B); exists x; auto. Qed.
Lemma In_remove : forall n (g : graph) m, In m (remove_node O n g) <-> In m g /\ nid m <> n.
Proof. intros n g m. unfold remove_node. rewrite filter_In, negb_true_iff, Nat.eqb_neq. tauto. Qed.
Lemma elide_node_spec : forall (g : graph) m, NoDup (map nid g) -> In m g -> uses g (nid m, 0) = 1 -> forall a rest, ins m = a :: rest ->
  elide_node O (nid m) g = Some (remove_node O (nid m) (redirect (nid m, 0) a g)).
Proof.
  intros g m N Hm U a rest E. unfold elide_node, single_linked_output. rewrite (In_find_node g m N Hm), E. cbn [nth_error].
  destruct (single_linked_one g (nid m, 0) U) as (x & L & ->). f_equal. f_equal. rewrite <- fold_connect, L by assumption. reflexivity.
Qed.
End Graph.
