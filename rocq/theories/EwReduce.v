(** Circuits without their empty wires are valid, well typed, and compute the same as before. *)
From Coq Require Import List Bool Arith Lia Ring_theory Permutation Sorted.
From Verif Require Import PatSpec PatModel PatProofs PatRewrite PatInterp EccModel EwModel EwSpec EwProofs EwSim.
Import ListNotations.

Section Reduce.
Variables ain aout : optype -> nat.
Variable lin : optype -> nat -> bool.
Notation circuit := (circuit optype).
Lemma once_count {A} (dec : forall x y : A, {x = y} + {x <> y}) (w : A) l : (forall a b, l = a ++ w :: b -> ~ In w a /\ ~ In w b) <-> count_occ dec l w <= 1.
Proof.
  split.
  - intros H. destruct (in_dec dec w l) as [Hin|N]; [|rewrite (proj1 (count_occ_not_In dec l w) N); lia]. apply in_split in Hin. destruct Hin as (a & b & E). destruct (H a b E) as [N1 N2].
    rewrite E, count_occ_app. cbn. destruct (dec w w); [|congruence]. rewrite (proj1 (count_occ_not_In dec a w) N1), (proj1 (count_occ_not_In dec b w) N2). lia.
  - intros H a b ->. rewrite count_occ_app in H. cbn in H. destruct (dec w w); [|congruence]. split; apply (count_occ_not_In dec); lia.
Qed.
Lemma ordered_bounded (c : circuit) l : schedule ain aout lin c l -> bounded ain c.
Proof.
  intros H. assert (K : forall a w, known aout c a w -> in_range c w) by (intros a w [(k & -> & Hk)|(x & _ & Hw)]; [auto|apply (out_id _ aout) in Hw; destruct Hw as (j & ->); exact I]). split.
  - intros x w Hx Hw. apply (Permutation_in _ (v_perm H)) in Hx. apply in_split in Hx. destruct Hx as (a & b & E). eapply K. eapply (v_order H a x b E); eauto.
  - intros w Hw. eapply K. apply (v_outs H). auto.
Qed.
Section Step.
Variables (k : nat) (c d : circuit).
Hypothesis W : without_wires ain [k] c d.
Hypothesis Ik : idle ain c k.
Lemma no_use x w : In x (c_nodes c) -> In w (ins ain c x) -> w <> Inp k.
Proof. intros Hx Hw ->. destruct Ik as (_ & H & _). apply (H x); auto. Qed.
Lemma linear_without x : In x (c_nodes c) -> linear_ins ain lin d x = map (renumber [k]) (linear_ins ain lin c x).
Proof. intros Hx. unfold linear_ins. rewrite map_map. apply map_ext_in. intros i Hi. apply filter_In in Hi. destruct Hi as [Hi _]. apply in_seq in Hi. apply (w_src W); auto. lia. Qed.
Lemma keep_all l : (forall w, In w l -> w <> Inp k) -> filter (fun w => negb (removed [k] w)) l = l.
Proof. intros H. apply filter_all. intros w Hw. apply removed_not. auto. Qed.
Lemma uses_without l : incl l (c_nodes c) -> uses ain d l = map (renumber [k]) (filter (fun w => negb (removed [k] w)) (uses ain c l)).
Proof.
  intros Hl. unfold uses. rewrite filter_app, map_app. f_equal; [|apply (w_outs W)]. rewrite keep_all.
  - induction l as [|x l IH]; auto. cbn [flat_map]. rewrite map_app, <- IH by (intros y Hy; apply Hl; now right). rewrite (ins_without ain k c d x) by (auto; apply Hl; now left). auto.
  - intros w Hw. apply in_flat_map in Hw. destruct Hw as (x & Hx & Hw). apply (no_use x); auto.
Qed.
Lemma known_to a w : w <> Inp k -> known aout c a w -> known aout d a (renumber [k] w).
Proof.
  intros N [(m & -> & Hm)|(x & Hx & Hw)]; [left|right].
  - assert (Wi := w_inputs W). cbn [renumber filter length] in *. eexists. split; [reflexivity|]. assert (m <> k) by congruence. destruct Ik as (Hk & _). destruct (Nat.ltb_spec k m); cbn [length]; lia.
  - exists x. split; auto. assert (Hw' := Hw). apply (out_id _ aout) in Hw'. destruct Hw' as (j & ->). auto.
Qed.
Lemma known_back a w : known aout d a (renumber [k] w) -> known aout c a w.
Proof.
  intros [(m & E & Hm)|(x & Hx & Hw)].
  - destruct w as [j|]; [|discriminate]. left. exists j. split; auto. assert (Wi := w_inputs W). cbn [renumber filter length] in *. injection E as E. destruct (Nat.ltb_spec k j); cbn [length] in E; lia.
  - destruct w as [j|n j]; [apply (out_id _ aout) in Hw; destruct Hw; discriminate|]. right. exists x. auto.
Qed.
Lemma schedule_to l : schedule ain aout lin c l -> schedule ain aout lin d l.
Proof.
  intros H. assert (Hl : incl l (c_nodes c)) by (intros x Hx; apply (Permutation_in _ (Permutation_sym (v_perm H))); auto). constructor.
  - rewrite (w_nodes W). apply (v_perm H).
  - apply (v_ids H).
  - intros a x b E w Hw. assert (Hx : In x (c_nodes c)) by (apply Hl; rewrite E; apply in_or_app; right; now left). rewrite (ins_without ain k c d x) in Hw by auto. apply in_map_iff in Hw. destruct Hw as (v & <- & Hv).
    apply known_to; [apply (no_use x); auto|]. apply (v_order H a x b E). auto.
  - intros w Hw. rewrite (w_outs W) in Hw. apply in_map_iff in Hw. destruct Hw as (v & <- & Hv). apply filter_In in Hv. destruct Hv as [Hv N]. apply removed_not in N. apply known_to; auto. apply (v_outs H). auto.
  - intros x w Hx Hw. apply (once_count source_eq_dec). rewrite linear_without in Hw by auto. apply in_map_iff in Hw. destruct Hw as (v & <- & Hv). rewrite uses_without by auto.
    rewrite count_renumber by (apply (no_use x); auto; apply linear_in in Hv; auto). apply once_count. intros a b E. apply (v_linear H x v Hx Hv a b E).
Qed.
Lemma schedule_back l : schedule ain aout lin d l -> schedule ain aout lin c l.
Proof.
  intros H. assert (Hl : incl l (c_nodes c)) by (intros x Hx; rewrite <- (w_nodes W); apply (Permutation_in _ (Permutation_sym (v_perm H))); auto). constructor.
  - rewrite <- (w_nodes W). apply (v_perm H).
  - apply (v_ids H).
  - intros a x b E w Hw. assert (Hx : In x (c_nodes c)) by (apply Hl; rewrite E; apply in_or_app; right; now left). apply known_back. apply (v_order H a x b E). rewrite (ins_without ain k c d x) by auto. apply in_map. auto.
  - intros w Hw. destruct (source_eq_dec w (Inp k)) as [->|N]; [left; exists k; split; auto; apply Ik|]. apply known_back. apply (v_outs H). rewrite (w_outs W). apply in_map. apply filter_In. split; auto. apply removed_not. auto.
  - intros x w Hx Hw. apply (once_count source_eq_dec). assert (N : w <> Inp k) by (apply (no_use x); auto; apply linear_in in Hw; auto). rewrite <- (count_renumber k w N), <- uses_without by auto. apply once_count. intros a b E.
    apply (v_linear H x (renumber [k] w) Hx); auto. rewrite linear_without by auto. apply in_map. auto.
Qed.

(** ** Typing *)
Variable lout : optype -> nat -> bool.
Definition cut {A} (n : nat) (l : list A) : list A := firstn n l ++ skipn (S n) l.
Lemma cut_nth (l : list bool) m : k < length l -> m <> k -> nth (m - length (filter (fun v => v <? m) [k])) (cut k l) false = nth m l false.
Proof.
  intros Hk N. unfold cut. cbn [filter]. assert (Lf : length (firstn k l) = k) by (rewrite firstn_length; lia). destruct (Nat.ltb_spec k m); cbn [length].
  - rewrite app_nth2 by lia. rewrite Lf. rewrite <- (firstn_skipn (S k) l) at 2. rewrite app_nth2 by (rewrite firstn_length; lia). f_equal. rewrite firstn_length. lia.
  - rewrite app_nth1 by lia. rewrite <- (firstn_skipn k l) at 2. rewrite app_nth1 by lia. f_equal. lia.
Qed.
Lemma flag_without fi w : k < length fi -> w <> Inp k -> flag lout d (cut k fi) (renumber [k] w) = flag lout c fi w.
Proof.
  intros Hk N. destruct w as [m|n j]; cbn [flag renumber].
  - apply cut_nth; congruence.
  - rewrite (w_nodes W). reflexivity.
Qed.
Lemma keep_map {A} (q : A -> bool) {B} (f : A -> B) l : keep (map q l) (map f l) = map f (filter q l).
Proof. induction l as [|x l IH]; auto. cbn [map keep filter]. destruct (q x); cbn [map]; rewrite IH; auto. Qed.
Lemma typed_without fi fo : linear_typed ain lin lout c fi fo -> linear_typed ain lin lout d (cut k fi) (keep (map (fun w => negb (removed [k] w)) (c_outs c)) fo).
Proof.
  intros T. assert (Hk : k < length fi) by (rewrite (t_ins T); apply Ik). constructor.
  - assert (Wi := w_inputs W). rewrite <- (t_ins T) in Wi. unfold cut. rewrite app_length, firstn_length, skipn_length. cbn [length] in Wi. lia.
  - intros x i Hx Hi. rewrite (w_nodes W) in Hx. rewrite (w_src W) by auto. rewrite flag_without; auto; [apply (t_port T); auto|]. apply (no_use x); auto. apply in_ins. eauto.
  - rewrite <- (t_outs T), keep_map, (w_outs W), map_map. apply map_ext_in. intros w Hw. apply filter_In in Hw. destruct Hw as [_ Hw]. apply removed_not in Hw. apply flag_without; auto.
  - intros w Hw. assert (Pre : exists v, v <> Inp k /\ w = renumber [k] v).
    { destruct w as [j|n j]; [|exists (Out n j); split; [discriminate|auto]]. exists (Inp (if j <? k then j else S j)). split; [destruct (Nat.ltb_spec j k); intros [= E]; lia|]. cbn [renumber filter]. f_equal. destruct (Nat.ltb_spec j k); [destruct (Nat.ltb_spec k j)|destruct (Nat.ltb_spec k (S j))]; cbn [length]; lia. }
    destruct Pre as (v & Nv & ->). rewrite flag_without in Hw by auto. rewrite (w_nodes W), uses_without by (intros y Hy; auto). rewrite count_renumber by auto. apply (t_once T). auto.
Qed.
End Step.

(** ** Meaning *)
Variable R : Type.
Variables (r0 r1 : R) (radd rmul rsub : R -> R -> R) (ropp : R -> R).
Hypothesis Rth : ring_theory r0 r1 radd rmul rsub ropp eq.
Variable P : Type.
Variables d0 d1 : P.
Hypothesis two_values : d0 <> d1.
Variable matrix : optype -> list P -> list bool -> list bool -> R.
Variable qout : optype -> nat -> option nat.
Variable cout : optype -> list P -> nat -> P.
Hypothesis qout_inj : forall o j j' k, qout o j = Some k -> qout o j' = Some k -> j = j'.
Notation glout := (lout optype ain lin qout).
Notation G := (gates optype ain aout lin R r0 r1 radd rmul rsub ropp Rth P d0 matrix qout cout qout_inj).
Notation gact := (gact optype lin R r0 radd rmul P d0 matrix qout cout).
Notation state := (state R P).
Notation holds := (holds R P).
Notation amp := (amp R P).
Notation grun := (fold_left (fun s a => gact a s)).
Notation Qubit := (Qubit P).
Notation Bits := (Bits P).
Notation outs := (outs aout).
Notation ins := (ins ain).
Notation action_of := (action_of ain aout).
Notation related := (related R P).
Notation related_run := (related_run ain aout lin R r0 radd rmul P d0 matrix qout cout).

Definition others (k n : nat) : list source := map Inp (filter (fun m => negb (m =? k)) (seq 0 n)).
Lemma others_in k n w : In w (others k n) <-> exists m, w = Inp m /\ m < n /\ m <> k.
Proof.
  unfold others. rewrite in_map_iff. split.
  - intros (m & <- & H). apply filter_In in H. destruct H as [H1 H2]. apply in_seq in H1. exists m. split; auto. destruct (Nat.eqb_spec m k); [discriminate|]. split; [lia|auto].
  - intros (m & -> & H1 & H2). exists m. split; auto. apply filter_In. split; [apply in_seq; lia|]. destruct (Nat.eqb_spec m k); [lia|auto].
Qed.
Lemma known_others (c : circuit) k a w : known aout c a w -> w <> Inp k -> In w (others k (c_inputs c) ++ flat_map outs a).
Proof.
  intros H N. apply in_or_app. destruct H as [(m & -> & Hm)|(x & Hx & Hw)]; [left; apply others_in; exists m; repeat split; auto; congruence|right; apply in_flat_map; eauto].
Qed.
Lemma others_not k n w : In w (others k n) -> w <> Inp k.
Proof. intros H. apply others_in in H. destruct H as (m & -> & _ & N). congruence. Qed.
Lemma outs_not (l : list (nat * optype)) k w : In w (flat_map outs l) -> w <> Inp k.
Proof. intros H. apply in_flat_map in H. destruct H as (x & _ & H). apply (out_id _ aout) in H. destruct H as (j & ->). discriminate. Qed.

(** Which outputs come from an idle input. *)
Definition probe (fi : list bool) (k : nat) (second : bool) : state :=
  {| PatInterp.holds := fun w => match w with Inp m => if nth m fi false then Qubit (if (m =? k) && second then 2 * m + 1 else 2 * m) else Bits (if (m =? k) && second then d1 else d0) | Out _ _ => Bits d0 end;
     PatInterp.amp := fun _ => r0; PatInterp.amp_ext := fun _ _ _ => eq_refl |}.
Lemma probe_ok fi k b n : like G (map (fun k => (Inp k, Inp k)) (seq 0 n)) (probe fi k b) (probe fi k b).
Proof.
  split; [|split]; auto.
  - intros w w' H. apply in_map_iff in H. destruct H as (m & [= <- <-] & _). auto.
  - intros u u' w w' q Hu Hw Q1 Q2. apply in_map_iff in Hu, Hw. destruct Hu as (m & [= <- <-] & _), Hw as (m' & [= <- <-] & _). cbn [PatInterp.holds probe] in Q1, Q2.
    assert (m = m') as ->; auto. destruct (nth m fi false), (nth m' fi false); try discriminate. injection Q1 as Q1. injection Q2 as Q2. destruct ((m =? k) && b), ((m' =? k) && b); lia.
Qed.
Lemma probe_typed fi k b (c : circuit) : typed_inputs G fi c (fun w => w) (probe fi k b).
Proof. intros m _. cbn [kind gates]. unfold gkind. cbn [PatInterp.holds probe]. destruct (nth m fi false); reflexivity. Qed.
Lemma rename_id (a : action optype) : rename (fun w => w) a = a.
Proof. destruct a. unfold rename. cbn. rewrite !map_id. auto. Qed.
Lemma probe_run (c : circuit) l fi k w : schedule ain aout lin c l -> idle ain c k -> In w (c_outs c) ->
  (w = Inp k /\ holds (grun (map (action_of c) l) (probe fi k false)) w <> holds (grun (map (action_of c) l) (probe fi k true)) w) \/
  (w <> Inp k /\ holds (grun (map (action_of c) l) (probe fi k false)) w = holds (grun (map (action_of c) l) (probe fi k true)) w).
Proof.
  intros H Ik Hw. destruct (source_eq_dec w (Inp k)) as [->|N]; [left|right]; split; auto.
  - assert (U : forall s, holds (grun (map (action_of c) l) s) (Inp k) = holds s (Inp k)).
    { intros s. apply untouched. intros a Ha Ho. apply in_map_iff in Ha. destruct Ha as (x & <- & _). cbn in Ho. apply (out_id _ aout) in Ho. destruct Ho as (j & Ho). discriminate. }
    rewrite !U. cbn [PatInterp.holds probe]. rewrite Nat.eqb_refl. cbn [andb]. destruct (nth k fi false); [intros [= E]; lia|intros [= E]; auto].
  - assert (Rel : related (fun w => w) (others k (c_inputs c) ++ flat_map outs l) (grun (map (fun x => rename (fun w => w) (action_of c x)) l) (probe fi k false)) (grun (map (action_of c) l) (probe fi k true))).
    { apply related_run.
      - split; auto. intros v Hv. apply others_in in Hv. destruct Hv as (m & -> & _ & Nm). cbn [PatInterp.holds probe]. destruct (Nat.eqb_spec m k); [contradiction|reflexivity].
      - intros a x b E v Hv. apply known_others; [apply (v_order H a x b E); auto|]. apply (no_use k c Ik x); auto. apply (Permutation_in _ (Permutation_sym (v_perm H))). rewrite E. apply in_or_app. right. now left.
      - auto. }
    destruct Rel as [Rel _]. erewrite map_ext in Rel; [|intros x; apply rename_id]. apply Rel. apply known_others; auto. apply (v_outs H). auto.
Qed.
Lemma same_positions (c t : circuit) fi k lc lt : schedule ain aout lin c lc -> schedule ain aout lin t lt -> idle ain c k -> idle ain t k -> equivalent G fi c t ->
  map (removed [k]) (c_outs c) = map (removed [k]) (c_outs t).
Proof.
  intros Hc Ht Ic It (_ & El & Eq).
  assert (Z : forall b w w', In (w, w') (combine (c_outs c) (c_outs t)) -> holds (grun (map (action_of c) lc) (probe fi k b)) w = holds (grun (map (action_of t) lt) (probe fi k b)) w').
  { intros b w w' H. destruct (Eq lc lt (probe fi k b) (probe fi k b) Hc Ht) as (M1 & _); [apply probe_ok|apply probe_typed|]. apply M1. auto. }
  assert (Q : forall w w', In (w, w') (combine (c_outs c) (c_outs t)) -> removed [k] w = removed [k] w').
  { intros w w' H. assert (Z1 := Z false w w' H). assert (Z2 := Z true w w' H).
    destruct (probe_run c lc fi k w Hc Ic) as [[-> N]|[N N']]; [apply in_combine_l in H; auto| |]; (destruct (probe_run t lt fi k w' Ht It) as [[-> M]|[M M']]; [apply in_combine_r in H; auto| |]); auto; try congruence.
    apply removed_not in N, M. destruct (removed [k] w), (removed [k] w'); auto; discriminate. }
  clear - El Q. revert El Q. generalize (c_outs c) (c_outs t). induction l as [|w l IH]; intros [|w' l'] El Q; try discriminate; auto. cbn [map]. f_equal; [apply Q; now left|]. apply IH; [auto|]. intros u u' H. apply Q. now right.
Qed.

(** *** One wire less *)
Definition qubits (n : nat) (s : state) : nat := fold_right (fun m a => match holds s (Inp m) with PatInterp.Qubit _ q => Nat.max (S q) a | _ => a end) 0 (seq 0 n).
Lemma qubits_bound n s m q : m < n -> holds s (Inp m) = Qubit q -> q < qubits n s.
Proof.
  intros Hm H. unfold qubits. assert (Hin : In m (seq 0 n)) by (apply in_seq; lia). induction (seq 0 n) as [|x l IH]; [destruct Hin|]. cbn [fold_right]. destruct Hin as [->|Hin]; [rewrite H; lia|]. specialize (IH Hin). destruct (holds s (Inp x)); lia.
Qed.
Definition insert (k n : nat) (linear : bool) (q : nat) (s : state) : state :=
  {| PatInterp.holds := fun w => if source_eq_dec w (Inp k) then (if linear then Qubit q else Bits d0) else holds s (renumber [k] w); PatInterp.amp := amp s; PatInterp.amp_ext := amp_ext R P s |}.
Lemma insert_same k n b q s : holds (insert k n b q s) (Inp k) = if b then Qubit q else Bits d0.
Proof. cbn [insert PatInterp.holds]. destruct (source_eq_dec (Inp k) (Inp k)); congruence. Qed.
Lemma insert_other k n b q s w : w <> Inp k -> holds (insert k n b q s) w = holds s (renumber [k] w).
Proof. intros N. cbn [insert PatInterp.holds]. destruct (source_eq_dec w (Inp k)); congruence. Qed.
Lemma insert_run k (c c' : circuit) l n b q s : without_wires ain [k] c c' -> idle ain c k -> schedule ain aout lin c l ->
  related (renumber [k]) (others k (c_inputs c) ++ flat_map outs l) (grun (map (action_of c') l) s) (grun (map (action_of c) l) (insert k n b q s)).
Proof.
  intros W Ik H. assert (Hl : incl l (c_nodes c)) by (intros x Hx; apply (Permutation_in _ (Permutation_sym (v_perm H))); auto).
  assert (E : map (action_of c') l = map (fun x => rename (renumber [k]) (action_of c x)) l).
  { apply map_ext_in. intros x Hx. unfold PatSpec.action_of, rename. cbn [a_op a_ins a_outs]. rewrite (ins_without ain k c c' x) by auto. f_equal. rewrite (map_ext_in _ (fun w => w)); [symmetry; apply map_id|]. intros w Hw. apply (out_id _ aout) in Hw. destruct Hw as (j & ->). reflexivity. }
  rewrite E. apply related_run.
  - split; auto. intros w Hw. symmetry. apply insert_other. apply others_not in Hw. auto.
  - intros a x z E' w Hw. apply known_others; [apply (v_order H a x z E'); auto|]. apply (no_use k c Ik x); auto. apply Hl. rewrite E'. apply in_or_app. right. now left.
  - intros x w v Hx Hw Hv. apply renumber_inj.
    + apply (outs_not l). apply in_flat_map. eauto.
    + apply in_app_or in Hv. destruct Hv as [Hv|Hv]; [apply others_not in Hv; auto|apply outs_not with (l := l); auto].
Qed.
Lemma keep_combine (q : source -> bool) {A B} (f : source -> A) (g : source -> B) l m : map q l = map q m -> forall u v, In (u, v) (combine (map f (filter q l)) (map g (filter q m))) ->
  exists a b, In (a, b) (combine l m) /\ q a = true /\ q b = true /\ u = f a /\ v = g b.
Proof.
  revert m. induction l as [|x l IH]; intros [|y m] E u v H; try discriminate; [destruct H|]. cbn [map] in E. injection E as E1 E2. cbn [filter] in H. rewrite <- E1 in H. destruct (q x) eqn:Qx.
  - cbn [map combine] in H. destruct H as [[= <- <-]|H]; [exists x, y; split; [now left|]; auto|]. destruct (IH m E2 u v H) as (a & b & ? & ?). exists a, b. split; auto. now right.
  - destruct (IH m E2 u v H) as (a & b & ? & ?). exists a, b. split; auto. now right.
Qed.
Lemma equivalent_without k (c t c' t' : circuit) fi lc lt : without_wires ain [k] c c' -> without_wires ain [k] t t' -> idle ain c k -> idle ain t k -> schedule ain aout lin c lc -> schedule ain aout lin t lt ->
  k < length fi -> equivalent G fi c t -> equivalent G (cut k fi) c' t'.
Proof.
  intros Wc Wt Ic It Hc Ht Hk Eq. assert (Pos := same_positions c t fi k lc lt Hc Ht Ic It Eq). destruct Eq as (En & El & Eq).
  assert (Wc1 := w_inputs Wc). assert (Wt1 := w_inputs Wt). cbn [length] in Wc1, Wt1.
  assert (Mask : map (fun w => negb (removed [k] w)) (c_outs c) = map (fun w => negb (removed [k] w)) (c_outs t)) by (rewrite <- !(map_map (removed [k]) negb); rewrite Pos; auto).
  split; [lia|]. split.
  { rewrite (w_outs Wc), (w_outs Wt), !map_length. clear - Mask. revert Mask. generalize (c_outs c) (c_outs t). induction l as [|x l IH]; intros [|y m] E; try discriminate; auto. cbn [map] in E. injection E as E1 E2. cbn [filter]. rewrite <- E1. destruct (negb (removed [k] x)); cbn [length]; rewrite (IH m); auto. }
  intros l m s t0 Hl Hm L Ti. apply (schedule_back k c c' Wc Ic) in Hl. apply (schedule_back k t t' Wt It) in Hm.
  set (b := nth k fi false). set (q := qubits (c_inputs c') s).
  destruct (insert_run k c c' l (c_inputs c) b q s Wc Ic Hl) as [Rc Ac]. destruct (insert_run k t t' m (c_inputs t) b q t0 Wt It Hm) as [Rt At].
  destruct L as (L1 & L2 & L3).
  assert (J : forall m, m < c_inputs c -> m <> k -> exists j, renumber [k] (Inp m) = Inp j /\ j < c_inputs c').
  { intros i Hi Ni. cbn [renumber filter]. eexists. split; [reflexivity|]. destruct Ic as (Hkc & _). destruct (Nat.ltb_spec k i); cbn [length]; lia. }
  assert (D : forall j, j < c_inputs c' -> In (Inp j, Inp j) (map (fun k => (Inp k, Inp k)) (seq 0 (c_inputs c')))) by (intros j Hj; apply in_map_iff; exists j; split; auto; apply in_seq; lia).
  assert (L0 : like G (map (fun k => (Inp k, Inp k)) (seq 0 (c_inputs c))) (insert k (c_inputs c) b q s) (insert k (c_inputs t) b q t0)).
  { split; [|split].
    - intros w w' H. apply in_map_iff in H. destruct H as (i & [= <- <-] & Hi). apply in_seq in Hi. destruct (Nat.eq_dec i k) as [->|Ni]; [rewrite !insert_same; auto|]. rewrite !insert_other by congruence. destruct (J i) as (j & -> & Hj); [lia|auto|]. apply L1. auto.
    - intros u u' w w' n Hu Hw Q1 Q2. apply in_map_iff in Hu, Hw. destruct Hu as (i & [= <- <-] & Hi), Hw as (i' & [= <- <-] & Hi'). apply in_seq in Hi, Hi'.
      assert (i = i') as ->; auto. destruct (Nat.eq_dec i k) as [->|Ni], (Nat.eq_dec i' k) as [->|Ni']; auto.
      + exfalso. rewrite insert_same in Q1. rewrite insert_other in Q2 by congruence. destruct (J i') as (j & Ej & Hj); [lia|auto|]. rewrite Ej in Q2. apply (qubits_bound (c_inputs c')) in Q2; auto. destruct b; [|discriminate]. injection Q1 as Q1. unfold q in Q1. lia.
      + exfalso. rewrite insert_same in Q2. rewrite insert_other in Q1 by congruence. destruct (J i) as (j & Ej & Hj); [lia|auto|]. rewrite Ej in Q1. apply (qubits_bound (c_inputs c')) in Q1; auto. destruct b; [|discriminate]. injection Q2 as Q2. unfold q in Q2. lia.
      + rewrite insert_other in Q1, Q2 by congruence. destruct (J i) as (j & Ej & Hj); [lia|auto|]. destruct (J i') as (j' & Ej' & Hj'); [lia|auto|]. assert (E : renumber [k] (Inp i) = renumber [k] (Inp i')).
        { rewrite Ej, Ej' in *. destruct (L2 (Inp j) (Inp j) (Inp j') (Inp j') n) as [E _]; auto. }
        apply renumber_inj in E; congruence.
    - exact L3. }
  assert (Ti0 : typed_inputs G fi c (fun w => w) (insert k (c_inputs c) b q s)).
  { intros i Hi. cbn [kind gates]. unfold gkind. destruct (Nat.eq_dec i k) as [->|Ni]; [rewrite insert_same; unfold b; destruct (nth k fi false); reflexivity|]. rewrite insert_other by congruence.
    destruct (J i Hi Ni) as (j & Ej & Hj). rewrite Ej. assert (T := Ti j Hj). cbn [kind gates] in T. unfold gkind in T. rewrite T. rewrite <- (cut_nth k fi i) by auto. cbn [renumber] in Ej. injection Ej as <-. reflexivity. }
  destruct (Eq l m _ _ Hl Hm L0 Ti0) as (M1 & M2 & M3). unfold run in M1, M2, M3. cbn [act gates] in M1, M2, M3.
  assert (Oc : forall w, In w (c_outs c) -> w <> Inp k -> In w (others k (c_inputs c) ++ flat_map outs l)) by (intros w Hw N; apply known_others; auto; apply (v_outs Hl); auto).
  assert (Ot : forall w, In w (c_outs t) -> w <> Inp k -> In w (others k (c_inputs t) ++ flat_map outs m)) by (intros w Hw N; apply known_others; auto; apply (v_outs Hm); auto).
  rewrite (w_outs Wc), (w_outs Wt). unfold run. cbn [act gates]. split; [|split].
  - intros w w' H. apply keep_combine in H; auto. destruct H as (x & y & H & Qx & Qy & -> & ->). apply removed_not in Qx, Qy. rewrite Rc, Rt; [apply M1; auto| |]; [apply Ot|apply Oc]; auto; [apply in_combine_r in H|apply in_combine_l in H]; auto.
  - intros u u' w w' n Hu Hw Q1 Q2. apply keep_combine in Hu, Hw; auto. destruct Hu as (x & y & H & Qx & Qy & -> & ->), Hw as (x' & y' & H' & Qx' & Qy' & -> & ->). apply removed_not in Qx, Qy, Qx', Qy'.
    rewrite Rc in Q1 by (apply Oc; auto; apply in_combine_l in H; auto). rewrite Rc in Q2 by (apply Oc; auto; apply in_combine_l in H'; auto). destruct (M2 x y x' y' n) as [-> ->]; auto.
  - intros b'. rewrite Ac, At. apply M3.
Qed.
End Reduce.
