(** The removal of empty wires: proofs. *)
From Coq Require Import List Bool Arith Lia Permutation Sorted.
From Verif Require Import PatSpec PatModel PatProofs EccModel EwModel EwSpec.
Import ListNotations.

Section Removal.
Variable ain : optype -> nat.
Notation circuit := (circuit optype).
Definition in_range (c : circuit) (w : source) : Prop := match w with Inp k => k < c_inputs c | Out _ _ => True end.
Definition bounded (c : circuit) : Prop := (forall x w, In x (c_nodes c) -> In w (ins ain c x) -> in_range c w) /\ forall w, In w (c_outs c) -> in_range c w.

(** ** Empty wires *)
Lemma in_ins (c : circuit) x w : In w (ins ain c x) <-> exists k, k < ain (snd x) /\ c_src c (fst x) k = w.
Proof. unfold ins. rewrite in_map_iff. split; intros (k & H1 & H2); exists k; [apply in_seq in H2|split; [|apply in_seq]]; try split; auto; lia. Qed.
Lemma node_links (c : circuit) w : flat_map (fun x => map (fun k => (HNode (fst x), PIn k)) (filter (fun k => if source_eq_dec (c_src c (fst x) k) w then true else false) (seq 0 (ain (snd x))))) (c_nodes c) = [] <->
  forall x, In x (c_nodes c) -> ~ In w (ins ain c x).
Proof.
  induction (c_nodes c) as [|y l IH]; cbn [flat_map]; [split; [intros _ x []|auto]|]. split.
  - intros H. apply app_eq_nil in H. destruct H as [H1 H2]. intros x [->|Hx]; [|apply IH; auto].
    intros Hw. apply in_ins in Hw. destruct Hw as (k & Hk & E). apply map_eq_nil in H1.
    assert (Q : In k (filter (fun k => if source_eq_dec (c_src c (fst x) k) w then true else false) (seq 0 (ain (snd x))))) by (apply filter_In; split; [apply in_seq; lia|]; destruct (source_eq_dec (c_src c (fst x) k) w); congruence).
    rewrite H1 in Q. destruct Q.
  - intros H. rewrite (proj2 IH) by (intros; apply H; now right). rewrite app_nil_r. destruct (filter _ _) as [|k ks] eqn:E; auto. exfalso.
    assert (Q : In k (k :: ks)) by now left. rewrite <- E in Q. apply filter_In in Q. destruct Q as [Q1 Q2]. apply in_seq in Q1. destruct (source_eq_dec (c_src c (fst y) k) w) as [Q|Q]; [|discriminate].
    apply (H y (or_introl eq_refl)). apply in_ins. exists k. split; auto; lia.
Qed.
Definition positions (w : source) (l : list source) : list nat := filter (fun q => if source_eq_dec (nth q l w) w then true else false) (seq 0 (length l)).
Lemma positions_cons w v l : positions w (v :: l) = (if source_eq_dec v w then [0] else []) ++ map S (positions w l).
Proof.
  unfold positions. cbn [length seq filter nth]. assert (E : filter (fun q => if source_eq_dec match q with 0 => v | S m => nth m l w end w then true else false) (seq 1 (length l)) = map S (filter (fun q => if source_eq_dec (nth q l w) w then true else false) (seq 0 (length l)))).
  { rewrite <- seq_shift. induction (seq 0 (length l)) as [|p ps IH]; cbn [map filter]; auto. rewrite IH. destruct (source_eq_dec (nth p l w) w); auto. }
  rewrite E. destruct (source_eq_dec v w); auto.
Qed.
Lemma positions_count w l : length (positions w l) = count_occ source_eq_dec l w.
Proof. induction l as [|v l IH]; [reflexivity|]. rewrite positions_cons, app_length, map_length, IH. cbn [count_occ]. destruct (source_eq_dec v w); auto. Qed.
Lemma positions_in w l q : In q (positions w l) -> nth_error l q = Some w.
Proof.
  unfold positions. intros H. apply filter_In in H. destruct H as [H1 H2]. apply in_seq in H1. destruct (source_eq_dec (nth q l w) w) as [E|]; [|discriminate]. transitivity (Some (nth q l w)); [apply nth_error_nth'; lia|f_equal; auto].
Qed.
Lemma links_input (c : circuit) k : exists ns, linked_ports ain c HIn (POut k) = ns ++ map (fun q => (HOut, PIn q)) (positions (Inp k) (c_outs c)) /\
  (ns = [] <-> forall x, In x (c_nodes c) -> ~ In (Inp k) (ins ain c x)) /\ forall m p, In (m, p) ns -> exists n, m = HNode n.
Proof.
  eexists. split; [reflexivity|]. split; [apply node_links|]. intros m p H. apply in_flat_map in H. destruct H as (x & _ & H). apply in_map_iff in H. destruct H as (q & [= <- <-] & _). eauto.
Qed.
Lemma empty_idle (c : circuit) k : In k (empty_wires ain c) <-> idle ain c k.
Proof.
  unfold empty_wires, idle. rewrite filter_In, in_seq. destruct (links_input c k) as (ns & E & N & M). rewrite E, <- N, <- positions_count. split.
  - intros [H1 H2]. destruct ns as [|[m p] ns].
    + split; [lia|]. split; auto. cbn [app] in H2. destruct (positions (Inp k) (c_outs c)) as [|q [|q' ps]]; cbn; auto. discriminate.
    + exfalso. destruct (M m p (or_introl eq_refl)) as (n & ->). discriminate H2.
  - intros (H1 & -> & H3). split; [lia|]. cbn [app]. destruct (positions (Inp k) (c_outs c)) as [|q [|q' ps]]; cbn in *; auto; lia.
Qed.

(** ** Shifting ports *)
Lemma moves_source k n : forall w, fold_left (fun w p => move_source p (p - 1) w) (seq (k + 1) n) w = match w with Inp m => if (k <? m) && (m <? k + 1 + n) then Inp (m - 1) else Inp m | _ => w end.
Proof.
  induction n as [|n IH]; intros w.
  - destruct w as [m|]; auto. cbn [seq fold_left]. destruct (Nat.ltb_spec k m), (Nat.ltb_spec m (k + 1 + 0)); cbn [andb]; auto. lia.
  - rewrite seq_S, fold_left_app, IH. cbn [fold_left]. destruct w as [m|]; auto.
    destruct (Nat.ltb_spec k m), (Nat.ltb_spec m (k + 1 + n)), (Nat.ltb_spec m (k + 1 + S n)); cbn [andb move_source]; try lia.
    + destruct (Nat.eqb_spec (m - 1) (k + 1 + n)); [lia|auto].
    + destruct (Nat.eqb_spec m (k + 1 + n)) as [E|]; [f_equal; lia|lia].
    + destruct (Nat.eqb_spec m (k + 1 + n)); [lia|auto].
    + destruct (Nat.eqb_spec m (k + 1 + n)); [lia|auto].
Qed.
Lemma moves_circuit ps : forall c : circuit, let d := fold_left (fun c p => move_links c p (p - 1)) ps c in
  c_inputs d = c_inputs c /\ c_nodes d = c_nodes c /\ (forall n k, c_src d n k = fold_left (fun w p => move_source p (p - 1) w) ps (c_src c n k)) /\
  c_outs d = map (fun w => fold_left (fun w p => move_source p (p - 1) w) ps w) (c_outs c).
Proof.
  induction ps as [|p ps IH]; intros c; cbn [fold_left]; cbv zeta; [split; [|split; [|split]]; auto; symmetry; apply map_id|].
  destruct (IH (move_links c p (p - 1))) as (H1 & H2 & H3 & H4). split; [rewrite H1; auto|]. split; [rewrite H2; auto|]. split.
  - intros n k. rewrite H3. reflexivity.
  - rewrite H4. cbn [c_outs move_links]. rewrite map_map. reflexivity.
Qed.
Lemma shift_in_range (c : circuit) k w : k < c_inputs c -> in_range c w -> fold_left (fun w p => move_source p (p - 1) w) (seq (k + 1) (c_inputs c - (k + 1))) w = renumber [k] w.
Proof.
  intros Hk Hw. rewrite moves_source. destruct w as [m|]; auto. cbn [in_range renumber filter] in *. replace (k + 1 + (c_inputs c - (k + 1))) with (c_inputs c) by lia.
  destruct (Nat.ltb_spec k m); cbn [andb length]; [|f_equal; lia]. destruct (Nat.ltb_spec m (c_inputs c)); [reflexivity|lia].
Qed.
Definition put_back (l : list source) (p : nat) : list source := match nth_error l p with Some w => set_nth (p - 1) w l | None => l end.
Lemma set_length {A} (w : A) l : forall i, length (set_nth i w l) = length l.
Proof. induction l as [|x l IH]; intros [|i]; cbn; auto. Qed.
Lemma put_length l p : length (put_back l p) = length l.
Proof. unfold put_back. destruct (nth_error l p); auto. apply set_length. Qed.
Lemma puts_length ps : forall l, length (fold_left put_back ps l) = length l.
Proof. induction ps as [|p ps IH]; intros l; cbn [fold_left]; auto. rewrite IH, put_length. auto. Qed.
Lemma puts_cons x ps : forall l, (forall p, In p ps -> 1 <= p) -> fold_left put_back (map S ps) (x :: l) = x :: fold_left put_back ps l.
Proof.
  induction ps as [|p ps IH]; intros l H; cbn [map fold_left]; auto. rewrite <- IH by (intros; apply H; now right). f_equal. unfold put_back. cbn [nth_error]. destruct (nth_error l p) as [w|]; auto.
  assert (1 <= p) by (apply H; now left). destruct p as [|p]; [lia|]. cbn [set_nth]. replace (S (S p) - 1) with (S p) by lia. cbn [set_nth]. replace (S p - 1) with p by lia. auto.
Qed.
Lemma removelast_cons {A} (x : A) l : l <> [] -> removelast (x :: l) = x :: removelast l.
Proof. destruct l; [congruence|auto]. Qed.
Lemma shift_first l : forall y, removelast (fold_left put_back (seq 1 (length l)) (y :: l)) = l.
Proof.
  induction l as [|z l IH]; intros y; [reflexivity|]. cbn [length]. rewrite <- cons_seq. cbn [fold_left]. change (put_back (y :: z :: l) 1) with (z :: z :: l).
  rewrite <- seq_shift, puts_cons by (intros p Hp; apply in_seq in Hp; lia). rewrite removelast_cons, IH; auto.
  intros E. apply (f_equal (@length source)) in E. rewrite puts_length in E. discriminate.
Qed.
Lemma shift_at l : forall q, q < length l -> removelast (shift_outputs l q (length l)) = firstn q l ++ skipn (S q) l.
Proof.
  unfold shift_outputs. fold put_back. induction l as [|x l IH]; intros q H; cbn in H; [lia|]. destruct q as [|q].
  - change (0 + 1) with 1. cbn [length firstn skipn app]. replace (S (length l) - 1) with (length l) by lia. apply shift_first.
  - cbn [length firstn skipn app]. replace (S q + 1) with (S (q + 1)) by lia. replace (S (length l) - S (q + 1)) with (length l - (q + 1)) by lia. rewrite <- seq_shift.
    change (fun l0 p => match nth_error l0 p with Some w => set_nth (p - 1) w l0 | None => l0 end) with put_back in *.
    rewrite puts_cons by (intros p Hp; apply in_seq in Hp; lia). rewrite removelast_cons, IH; auto; [lia|].
    intros E. apply (f_equal (@length source)) in E. rewrite puts_length in E. cbn in E. lia.
Qed.
Lemma filter_once w : forall l q, positions w l = [q] -> filter (fun v => negb (if source_eq_dec v w then true else false)) l = firstn q l ++ skipn (S q) l.
Proof.
  induction l as [|v l IH]; intros q H; [discriminate|]. rewrite positions_cons in H. cbn [filter]. destruct (source_eq_dec v w) as [->|N].
  - cbn [app] in H. injection H as <- H. cbn [negb firstn skipn app]. apply map_eq_nil in H. assert (Hn : ~ In w l) by (apply (count_occ_not_In source_eq_dec); rewrite <- positions_count, H; auto).
    clear - Hn. induction l as [|v l IH]; auto. cbn [filter]. destruct (source_eq_dec v w) as [->|]; [exfalso; apply Hn; now left|]. cbn [negb]. rewrite IH; auto. intros H. apply Hn. now right.
  - cbn [app] in H. destruct (positions w l) as [|p [|]]; try discriminate. injection H as <-. cbn [negb firstn skipn app]. rewrite (IH p); auto.
Qed.
Lemma filter_none w l : positions w l = [] -> filter (fun v => negb (if source_eq_dec v w then true else false)) l = l.
Proof.
  intros H. assert (Hn : ~ In w l) by (apply (count_occ_not_In source_eq_dec); rewrite <- positions_count, H; auto). clear H.
  induction l as [|v l IH]; auto. cbn [filter]. destruct (source_eq_dec v w) as [->|]; [exfalso; apply Hn; now left|]. cbn [negb]. rewrite IH; auto. intros H. apply Hn. now right.
Qed.
Lemma removed_one k w : negb (removed [k] w) = negb (if source_eq_dec w (Inp k) then true else false).
Proof. destruct w as [m|n j]; cbn [removed existsb]; [|destruct (source_eq_dec _ _); [discriminate|auto]]. rewrite orb_false_r. destruct (Nat.eqb_spec m k) as [Em|N], (source_eq_dec (Inp m) (Inp k)) as [E|E]; auto; congruence. Qed.
(** One wire. *)
Lemma remove_one (c : circuit) k : bounded c -> idle ain c k -> exists d, remove_empty_wire ain c k = inl d /\ without_wires ain [k] c d.
Proof.
  intros [B1 B2] (Hk & Hn & Ho). unfold remove_empty_wire. destruct (Nat.leb_spec (c_inputs c) k); [lia|].
  destruct (links_input c k) as (ns & E & N & _). rewrite E. rewrite (proj2 N Hn). cbn [app]. clear ns E N. rewrite <- positions_count in Ho.
  destruct (moves_circuit (seq (k + 1) (c_inputs c - (k + 1))) c) as (M1 & M2 & M3 & M4).
  assert (Eo : c_outs (shift_inputs c k (c_inputs c)) = map (renumber [k]) (c_outs c)) by (unfold shift_inputs; rewrite M4; apply map_ext_in; intros w Hw; apply shift_in_range; auto).
  assert (R : forall d, c_inputs d = c_inputs (shift_inputs c k (c_inputs c)) - 1 -> c_nodes d = c_nodes (shift_inputs c k (c_inputs c)) -> c_src d = c_src (shift_inputs c k (c_inputs c)) ->
    c_outs d = map (renumber [k]) (filter (fun w => negb (removed [k] w)) (c_outs c)) -> without_wires ain [k] c d).
  { unfold shift_inputs. intros d D1 D2 D3 D4. constructor; [rewrite D1, M1; cbn; lia|rewrite D2; auto| |auto]. intros x i Hx Hi. rewrite D3, M3. apply shift_in_range; auto. apply (B1 x); auto. apply in_ins. eauto. }
  destruct (positions (Inp k) (c_outs c)) as [|q [|q' ps]] eqn:P; cbn [map]; [| |cbn in Ho; lia]; (eexists; split; [reflexivity|]; apply R; auto; cbn [c_outs]; rewrite Eo).
  - rewrite (filter_ext _ (fun v => negb (if source_eq_dec v (Inp k) then true else false))) by (intros; apply removed_one). rewrite filter_none; auto.
  - rewrite (filter_ext _ (fun v => negb (if source_eq_dec v (Inp k) then true else false))) by (intros; apply removed_one). rewrite (filter_once _ _ q) by auto.
    assert (Hq : q < length (c_outs c)) by (assert (Q := positions_in (Inp k) (c_outs c) q); rewrite P in Q; specialize (Q (or_introl eq_refl)); apply nth_error_Some; congruence).
    rewrite shift_at by (rewrite map_length; auto). rewrite map_app, firstn_map, skipn_map. auto.
Qed.

(** ** Several wires *)
Lemma renumber_inj k v w : v <> Inp k -> w <> Inp k -> renumber [k] v = renumber [k] w -> v = w.
Proof.
  intros Hv Hw. destruct v as [a|a j], w as [b|b j']; cbn [renumber filter]; try congruence. destruct (Nat.ltb_spec k a), (Nat.ltb_spec k b); cbn [length]; intros [= E]; try (f_equal; lia); exfalso.
  - apply Hw. f_equal. lia.
  - apply Hv. f_equal. lia.
Qed.
Lemma removed_not k w : negb (removed [k] w) = true <-> w <> Inp k.
Proof. rewrite removed_one. destruct (source_eq_dec w (Inp k)); cbn; split; congruence. Qed.
Lemma count_renumber k w : w <> Inp k -> forall l, count_occ source_eq_dec (map (renumber [k]) (filter (fun w => negb (removed [k] w)) l)) (renumber [k] w) = count_occ source_eq_dec l w.
Proof.
  intros N. induction l as [|v l IH]; auto. cbn [filter]. destruct (negb (removed [k] v)) eqn:E.
  - apply removed_not in E. cbn [map count_occ]. destruct (source_eq_dec v w) as [->|N'].
    + destruct (source_eq_dec (renumber [k] w) (renumber [k] w)); congruence.
    + destruct (source_eq_dec (renumber [k] v) (renumber [k] w)) as [E'|]; auto. apply renumber_inj in E'; auto. congruence.
  - assert (v = Inp k) as ->. { destruct (source_eq_dec v (Inp k)); auto. apply removed_not in n. congruence. }
    cbn [count_occ]. destruct (source_eq_dec (Inp k) w); congruence.
Qed.
Lemma ins_without k (c d : circuit) x : without_wires ain [k] c d -> In x (c_nodes c) -> ins ain d x = map (renumber [k]) (ins ain c x).
Proof. intros W Hx. unfold ins. rewrite map_map. apply map_ext_in. intros i Hi. apply in_seq in Hi. apply (w_src W); auto. lia. Qed.
Lemma bounded_without k (c d : circuit) : without_wires ain [k] c d -> idle ain c k -> bounded c -> bounded d.
Proof.
  intros W (Hk & Hn & _) [B1 B2]. assert (Wi := w_inputs W). cbn [length] in Wi.
  assert (R : forall w, in_range c w -> w <> Inp k -> in_range d (renumber [k] w)).
  { intros [m|n j] H N; [|exact I]. cbn [in_range renumber filter] in *. destruct (Nat.ltb_spec k m); cbn [length]; [lia|]. assert (m <> k) by congruence. lia. }
  split.
  - intros x w Hx Hw. rewrite (w_nodes W) in Hx. rewrite (ins_without k c d x) in Hw by auto. apply in_map_iff in Hw. destruct Hw as (v & <- & Hv). apply R; [eapply B1; eauto|]. intros ->. apply (Hn x); auto.
  - intros w Hw. rewrite (w_outs W) in Hw. apply in_map_iff in Hw. destruct Hw as (v & <- & Hv). apply filter_In in Hv. destruct Hv as [Hv N]. apply removed_not in N. apply R; auto.
Qed.
Lemma idle_without k (c d : circuit) m : without_wires ain [k] c d -> idle ain c k -> m <> k -> forall j, renumber [k] (Inp m) = Inp j -> idle ain d j <-> idle ain c m.
Proof.
  intros W (Hk & Hn & _) N j E. assert (Wi := w_inputs W). cbn [length] in Wi. assert (N' : Inp m <> Inp k) by congruence. unfold idle. rewrite (w_outs W), (w_nodes W), <- E, count_renumber by auto.
  assert (U : forall x, In x (c_nodes c) -> In (renumber [k] (Inp m)) (ins ain d x) <-> In (Inp m) (ins ain c x)).
  { intros x Hx. rewrite (ins_without k c d x W Hx), in_map_iff. split; [|exists (Inp m); auto]. intros (v & Ev & Hv). apply renumber_inj in Ev; [subst v; auto| |auto]. intros ->. apply (Hn x); auto. }
  assert (L : j < c_inputs d <-> m < c_inputs c). { cbn [renumber filter] in E. injection E as E. destruct (Nat.ltb_spec k m); cbn [length] in E; lia. }
  rewrite L. split; intros (H1 & H2 & H3); (split; [auto|]; split; [|auto]); intros x Hx Hi; apply (H2 x Hx); apply (U x Hx); auto.
Qed.
Lemma filter_all {A} (q : A -> bool) l : (forall x, In x l -> q x = true) -> filter q l = l.
Proof. induction l as [|x l IH]; intros H; auto. cbn [filter]. rewrite (H x) by now left. rewrite IH; auto. intros y Hy. apply H. now right. Qed.
Lemma renumber_app ws k w : (forall v, In v ws -> v < k) -> w <> Inp k -> renumber ws (renumber [k] w) = renumber (ws ++ [k]) w.
Proof.
  intros H N. destruct w as [m|n j]; auto. assert (m <> k) by congruence. cbn [renumber]. f_equal. rewrite filter_app, app_length. cbn [filter].
  destruct (Nat.ltb_spec k m); cbn [length]; [|rewrite Nat.sub_0_r, Nat.add_0_r; auto]. rewrite !filter_all; [lia| |]; intros v Hv; apply H in Hv; apply Nat.ltb_lt; lia.
Qed.
Lemma removed_app ws k w : (forall v, In v ws -> v < k) -> removed (ws ++ [k]) w = removed [k] w || (negb (removed [k] w) && removed ws (renumber [k] w)).
Proof.
  intros H. destruct w as [m|n j]; auto. cbn [removed renumber filter]. rewrite existsb_app. cbn [existsb]. rewrite orb_false_r. destruct (Nat.eqb_spec m k) as [E|N]; [rewrite orb_true_r; auto|]. cbn [orb negb andb]. rewrite orb_false_r.
  destruct (Nat.ltb_spec k m); cbn [length]; [|rewrite Nat.sub_0_r; auto].
  assert (Z : forall a, k <= a -> existsb (Nat.eqb a) ws = false). { intros a Ha. destruct (existsb (Nat.eqb a) ws) eqn:X; auto. apply existsb_exists in X. destruct X as (v & Hv & X). apply Nat.eqb_eq in X. apply H in Hv. lia. }
  rewrite !Z; auto; lia.
Qed.
Lemma filter_filter {A} (p q : A -> bool) l : filter p (filter q l) = filter (fun x => q x && p x) l.
Proof. induction l as [|x l IH]; auto. cbn [filter]. destruct (q x); cbn [filter andb]; rewrite IH; auto. Qed.
Lemma filter_map_comm {A B} (f : A -> B) (p : B -> bool) l : filter p (map f l) = map f (filter (fun x => p (f x)) l).
Proof. induction l as [|x l IH]; auto. cbn [map filter]. destruct (p (f x)); cbn [map]; rewrite IH; auto. Qed.
Lemma without_app ws k (c d e : circuit) : (forall v, In v ws -> v < k) -> idle ain c k -> without_wires ain [k] c d -> without_wires ain ws d e -> without_wires ain (ws ++ [k]) c e.
Proof.
  intros H (Hk & Hn & _) W V. assert (W1 := w_inputs W). assert (V1 := w_inputs V). cbn [length] in W1. constructor.
  - rewrite app_length. cbn [length]. lia.
  - rewrite (w_nodes V). apply (w_nodes W).
  - intros x i Hx Hi. rewrite (w_src V) by (try rewrite (w_nodes W); auto). rewrite (w_src W) by auto. apply renumber_app; auto. intros E. apply (Hn x Hx). apply in_ins. eauto.
  - rewrite (w_outs V), (w_outs W), filter_map_comm, map_map, filter_filter. erewrite (filter_ext (fun w => negb (removed (ws ++ [k]) w))) by (intros w; rewrite removed_app by auto; reflexivity).
    erewrite (filter_ext (fun w => negb (removed [k] w || _))). 2: { intros w. rewrite negb_orb. instantiate (1 := fun w => negb (removed [k] w) && negb (removed ws (renumber [k] w))). cbn beta. destruct (removed [k] w); auto. }
    apply map_ext_in. intros w Hw. apply filter_In in Hw. destruct Hw as [_ Hw]. apply andb_prop in Hw. destruct Hw as [Hw _]. apply removed_not in Hw. apply renumber_app; auto.
Qed.
Lemma remove_app (c : circuit) ws k : remove_wires ain c (ws ++ [k]) = match remove_empty_wire ain c k with inl d => remove_wires ain d ws | inr _ => None end.
Proof.
  unfold remove_wires. rewrite rev_app_distr. cbn [rev app fold_left]. destruct (remove_empty_wire ain c k) as [d|e]; auto. induction (rev ws); auto.
Qed.
Lemma sorted_app ws k : StronglySorted lt (ws ++ [k]) -> StronglySorted lt ws /\ forall v, In v ws -> v < k.
Proof.
  induction ws as [|w ws IH]; cbn [app]; intros H; [split; [constructor|intros v []]|]. inversion H as [|? ? H1 H2]; subst. destruct (IH H1) as [S1 S2]. rewrite Forall_forall in H2. split.
  - constructor; auto. apply Forall_forall. intros v Hv. apply H2. apply in_or_app. auto.
  - intros v [<-|Hv]; auto. apply H2. apply in_or_app. right. now left.
Qed.
Lemma low_idle k (c d : circuit) m : without_wires ain [k] c d -> idle ain c k -> m < k -> idle ain d m <-> idle ain c m.
Proof. intros W Ik H. apply (idle_without k c d m W Ik); [lia|]. cbn [renumber filter]. destruct (Nat.ltb_spec k m); [lia|]. cbn [length]. f_equal. lia. Qed.
Lemma idle_back k (c d : circuit) j : without_wires ain [k] c d -> idle ain c k -> idle ain d j -> exists m, m <> k /\ (m < k -> m = j) /\ (k < m -> m = S j) /\ idle ain c m.
Proof.
  intros W Ik H. exists (if j <? k then j else S j). assert (N : (if j <? k then j else S j) <> k) by (destruct (Nat.ltb_spec j k); lia). split; auto. split; [destruct (Nat.ltb_spec j k); lia|]. split; [destruct (Nat.ltb_spec j k); lia|].
  apply (idle_without k c d _ W Ik N j); auto. cbn [renumber filter]. destruct (Nat.ltb_spec j k).
  - destruct (Nat.ltb_spec k j); [lia|]. cbn [length]. f_equal. lia.
  - destruct (Nat.ltb_spec k (S j)); [|lia]. cbn [length]. f_equal. lia.
Qed.
Lemma remove_all ws : forall c : circuit, bounded c -> StronglySorted lt ws -> (forall k, In k ws -> idle ain c k) ->
  exists d, remove_wires ain c ws = Some d /\ without_wires ain ws c d /\ bounded d /\ forall j, idle ain d j -> exists m, ~ In m ws /\ idle ain c m.
Proof.
  induction ws as [|k ws IH] using rev_ind; intros c B Hs Hi.
  - exists c. split; [reflexivity|]. split; [|split; [auto|intros j Hj; exists j; split; auto]]. constructor; auto.
    + intros x i _ _. destruct (c_src c (fst x) i) as [m|]; cbn [renumber filter length]; f_equal; lia.
    + rewrite filter_all by (intros [m|n j] _; auto). rewrite (map_ext _ (fun w => w)) by (intros [m|n j]; cbn [renumber filter length]; f_equal; lia). symmetry. apply map_id.
  - apply sorted_app in Hs. destruct Hs as [S1 S2]. assert (Ik : idle ain c k) by (apply Hi; apply in_or_app; right; now left).
    destruct (remove_one c k B Ik) as (d & E & W). assert (Bd := bounded_without k c d W Ik B).
    destruct (IH d Bd S1) as (e & E' & W' & Be & Hb). { intros m Hm. apply (low_idle k c d m W Ik); auto. apply Hi. apply in_or_app. auto. }
    exists e. rewrite remove_app, E. split; auto. split; [apply (without_app ws k c d e); auto|]. split; auto.
    intros j Hj. destruct (Hb j Hj) as (m & Nm & Hm). destruct (idle_back k c d m W Ik Hm) as (m' & N1 & N2 & N3 & I'). exists m'. split; auto. intros Hin. apply in_app_or in Hin. destruct Hin as [Hin|[->|[]]]; [|congruence].
    apply Nm. assert (m' < k) by auto. rewrite <- N2; auto.
Qed.
Lemma empty_sorted (c : circuit) : StronglySorted lt (empty_wires ain c).
Proof.
  unfold empty_wires. generalize 0. induction (c_inputs c) as [|n IH]; intros b; cbn [seq filter]; [constructor|].
  destruct (match linked_ports ain c HIn (POut b) with [] => true | [(HOut, _)] => true | _ => false end); auto. constructor; auto. apply Forall_forall. intros v Hv. apply filter_In in Hv. destruct Hv as [Hv _]. apply in_seq in Hv. lia.
Qed.
End Removal.
