(** Facts about lists and about the pieces of the encoder. *)
From Coq Require Import List Bool Arith Lia Permutation.
From Verif Require Import EncSpec EncModel.
Import ListNotations.

Lemma kind_eqb_eq : forall a b, kind_eqb a b = true <-> a = b.
Proof. intros [] []; simpl; split; congruence. Qed.
Lemma kind_eqb_refl : forall a, kind_eqb a a = true.
Proof. intros []; reflexivity. Qed.

Lemma NoDup_app_iff : forall A (a b : list A), NoDup (a ++ b) <-> NoDup a /\ NoDup b /\ forall x, In x a -> ~ In x b.
Proof.
  intros A a b. induction a as [|x a IH]; simpl.
  - split; [intros H; repeat split; auto; constructor|intros (_ & H & _); auto].
  - split.
    + intros H. inversion H; subst. apply IH in H3. destruct H3 as (P1 & P2 & P3). repeat split; auto.
      * constructor; auto. intros F. apply H2. apply in_or_app. auto.
      * intros y [<-|I] F; [apply H2; apply in_or_app; auto|apply (P3 y); auto].
    + intros (P1 & P2 & P3). inversion P1; subst. constructor.
      * intros F. apply in_app_or in F. destruct F as [F|F]; auto. apply (P3 x); auto.
      * apply IH. repeat split; auto.
Qed.

Lemma firstn_In : forall A n (l : list A) x, In x (firstn n l) -> In x l.
Proof. intros. rewrite <- (firstn_skipn n l). apply in_or_app. auto. Qed.
Lemma skipn_In : forall A n (l : list A) x, In x (skipn n l) -> In x l.
Proof. intros. rewrite <- (firstn_skipn n l). apply in_or_app. auto. Qed.
Lemma firstn_add : forall A n m (l : list A), firstn (n + m) l = firstn n l ++ firstn m (skipn n l).
Proof. induction n; intros m l; simpl; [reflexivity|]. destruct l; simpl; [rewrite firstn_nil; reflexivity|]. f_equal. apply IHn. Qed.
Lemma skipn_add : forall A n m (l : list A), skipn (n + m) l = skipn m (skipn n l).
Proof. induction n; intros m l; simpl; [reflexivity|]. destruct l; simpl; [rewrite skipn_nil; reflexivity|]. apply IHn. Qed.

(** ** The first [T] things of some distinct parts, each used once. *)
Lemma take_nodup : forall (f : nat -> list nat) ws T,
  (forall w, NoDup (f w)) -> (forall w w' x, In x (f w) -> In x (f w') -> w = w') ->
  (forall l1 w l2, ws = l1 ++ w :: l2 -> 0 < length (f w) -> length (flat_map f l1) < T -> count_occ Nat.eq_dec ws w = 1) ->
  NoDup (firstn T (flat_map f ws)) /\ forall x, In x (firstn T (flat_map f ws)) -> ~ In x (skipn T (flat_map f ws)).
Proof.
  intros f ws. induction ws as [|w ws IH]; intros T N D U.
  - simpl. rewrite firstn_nil. split; [constructor|intros x []].
  - cbn [flat_map]. rewrite firstn_app, skipn_app.
    assert (K : forall x, In x (firstn T (f w)) -> ~ In x (flat_map f ws)).
    { intros x I F. apply in_flat_map in F. destruct F as (w' & I' & F). assert (w = w') by (apply (D w w' x); auto; eapply firstn_In; eauto). subst w'.
      destruct T as [|T]; [destruct I|].
      assert (C := U [] w ws eq_refl). simpl length in C. cbn [flat_map length] in C.
      rewrite count_occ_cons_eq in C by reflexivity. apply (count_occ_In Nat.eq_dec) in I'.
      assert (0 < length (f w)) by (destruct (f w); [destruct F|simpl; lia]). specialize (C H ltac:(lia)). lia. }
    destruct (IH (T - length (f w)) N D) as [P1 P2].
    { intros l1 w' l2 -> L1 L2. assert (C := U (w :: l1) w' l2 eq_refl L1). cbn [flat_map] in C. rewrite app_length in C. specialize (C ltac:(lia)).
      destruct (Nat.eq_dec w w') as [<-|Ne].
      - rewrite count_occ_cons_eq in C by reflexivity. rewrite count_occ_app, count_occ_cons_eq in C by reflexivity. lia.
      - rewrite count_occ_cons_neq in C by auto. exact C. }
    split.
    + apply NoDup_app_iff. split; [|split].
      * assert (Q := N w). rewrite <- (firstn_skipn T (f w)) in Q. apply NoDup_app_iff in Q. apply Q.
      * exact P1.
      * intros x I F. apply (K x I). eapply firstn_In; eauto.
    + intros x I F. apply in_app_or in I. apply in_app_or in F. destruct I as [I|I], F as [F|F].
      * assert (Q := N w). rewrite <- (firstn_skipn T (f w)) in Q. apply NoDup_app_iff in Q. destruct Q as (_ & _ & Q). apply (Q x); auto.
      * apply (K x I). eapply skipn_In; eauto.
      * assert (L : T < length (f w)). { destruct (le_lt_dec (length (f w)) T); auto. rewrite skipn_all2 in F by auto. destruct F. }
        replace (T - length (f w)) with 0 in I by lia. destruct I.
      * apply (P2 x); auto.
Qed.

(** ** Writing registers *)
Section Write.
Variable V : Type.
Notation regs := (kind -> nat -> V).
Lemma write_other_kind : forall k rest is vs (r : regs) k' i, k' <> k -> write k rest r is vs k' i = r k' i.
Proof.
  intros k rest is. induction is as [|j is IH]; intros vs r k' i N; simpl; [reflexivity|].
  assert (E : kind_eqb k' k = false) by (destruct (kind_eqb k' k) eqn:E; auto; apply kind_eqb_eq in E; contradiction).
  destruct vs; rewrite IH by auto; unfold set; rewrite E; reflexivity.
Qed.
Lemma write_notin : forall k rest is vs (r : regs) i, ~ In i is -> write k rest r is vs k i = r k i.
Proof.
  intros k rest is. induction is as [|j is IH]; intros vs r i N; simpl; [reflexivity|].
  assert (E : Nat.eqb i j = false) by (apply Nat.eqb_neq; intros ->; apply N; left; auto).
  destruct vs; rewrite IH by (intros F; apply N; right; auto); unfold set; rewrite E, andb_false_r; reflexivity.
Qed.
Lemma write_rest : forall k rest is vs (r : regs) i, In i is -> ~ In i (firstn (length vs) is) -> write k rest r is vs k i = rest i.
Proof.
  intros k rest is. induction is as [|j is IH]; intros vs r i I N; simpl; [destruct I|].
  destruct vs as [|v vs].
  - destruct (in_dec Nat.eq_dec i is) as [I'|N'].
    + apply IH; auto.
    + rewrite write_notin by auto. destruct I as [->|I]; [|contradiction]. unfold set. rewrite kind_eqb_refl, Nat.eqb_refl. reflexivity.
  - simpl in N. destruct I as [->|I]; [exfalso; apply N; left; auto|]. apply IH; auto.
Qed.
Lemma write_first : forall k rest is vs (r : regs), length vs <= length is -> NoDup (firstn (length vs) is) ->
  (forall x, In x (firstn (length vs) is) -> ~ In x (skipn (length vs) is)) ->
  map (write k rest r is vs k) (firstn (length vs) is) = vs.
Proof.
  intros k rest is. induction is as [|j is IH]; intros vs r L N D.
  - destruct vs; [reflexivity|simpl in L; lia].
  - destruct vs as [|v vs]; [reflexivity|]. cbn [length firstn map write skipn] in *. inversion N; subst.
    f_equal.
    + rewrite write_notin.
      * unfold set. rewrite kind_eqb_refl, Nat.eqb_refl. reflexivity.
      * intros F. rewrite <- (firstn_skipn (length vs) is) in F. apply in_app_or in F. destruct F as [F|F]; [contradiction|].
        apply (D j); [left; auto|exact F].
    + apply IH; auto; [lia|]. intros x I. apply D. right. auto.
Qed.
End Write.

(** ** Values *)
Section Values.
Variable E : Type.
Notation value := (value E).
Lemma regs_of_app : forall k (a b : list value), regs_of k (a ++ b) = regs_of k a ++ regs_of k b.
Proof. intros. unfold regs_of. apply flat_map_app. Qed.
Lemma pars_of_app : forall (a b : list value), pars_of (a ++ b) = pars_of a ++ pars_of b.
Proof. intros. unfold pars_of. apply flat_map_app. Qed.
Lemma regs_of_reg : forall k l, regs_of k (map (@Reg E k) l) = l.
Proof. intros k l. induction l as [|i l IH]; simpl; [reflexivity|]. rewrite kind_eqb_refl. simpl. f_equal. exact IH. Qed.
Lemma regs_of_reg' : forall k k' l, k <> k' -> regs_of k (map (@Reg E k') l) = [].
Proof. intros k k' l N. induction l as [|i l IH]; simpl; [reflexivity|]. destruct (kind_eqb k' k) eqn:Eq; [apply kind_eqb_eq in Eq; congruence|exact IH]. Qed.
Lemma pars_of_reg : forall k l, pars_of (map (@Reg E k) l) = [].
Proof. intros k l. induction l; simpl; auto. Qed.
Lemma regs_of_par : forall k l, regs_of k (map (@Par E) l) = [].
Proof. intros k l. induction l; simpl; auto. Qed.
Lemma pars_of_par : forall l, pars_of (map (@Par E) l) = l.
Proof. intros l. induction l as [|i l IH]; simpl; [reflexivity|]. f_equal. exact IH. Qed.
End Values.

Section Pieces.
Variables Op E : Type.
Notation state := (state Op E).
Notation value := (value E).

Lemma in_remove_iff : forall i j l, In j (remove i l) <-> In j l /\ j <> i.
Proof. intros i j l. unfold remove. rewrite filter_In, negb_true_iff, Nat.eqb_neq. reflexivity. Qed.
Lemma remove_nodup : forall i l, NoDup l -> NoDup (remove i l).
Proof. intros i l H. unfold remove. apply NoDup_filter. exact H. Qed.
Lemma in_insert_iff : forall i j l, In j (insert i l) <-> j = i \/ In j l.
Proof.
  intros i j l. unfold insert. destruct (existsb (Nat.eqb i) l) eqn:X.
  - apply existsb_exists in X. destruct X as (x & I & X). apply Nat.eqb_eq in X. subst x. split; [auto|intros [->|?]; auto].
  - simpl. split; [intros [<-|?]; auto|intros [->|?]; auto].
Qed.
Lemma insert_nodup : forall i l, NoDup l -> NoDup (insert i l).
Proof.
  intros i l H. unfold insert. destruct (existsb (Nat.eqb i) l) eqn:X; auto. constructor; auto. intros F.
  assert (existsb (Nat.eqb i) l = true) by (apply existsb_exists; exists i; split; auto; apply Nat.eqb_refl). congruence.
Qed.
Lemma smallest_in : forall l i, smallest l = Some i -> In i l.
Proof.
  induction l as [|j l IH]; simpl; intros i H; [discriminate|]. destruct (smallest l) as [m|] eqn:X; injection H as <-; auto.
  destruct (Nat.min_dec j m) as [e|e]; rewrite e; auto.
Qed.
Lemma smallest_none : forall l, smallest l = None -> l = [].
Proof. destruct l as [|j l]; simpl; auto. destruct (smallest l); discriminate. Qed.

Lemma mark_used_spec : forall vs (st : state),
  size (mark_used st vs) = size st /\ wires (mark_used st vs) = wires st /\ cmds (mark_used st vs) = cmds st /\
  forall k, (NoDup (unused st k) -> NoDup (unused (mark_used st vs) k)) /\ forall i, In i (unused (mark_used st vs) k) <-> In i (unused st k) /\ ~ In i (regs_of k vs).
Proof.
  induction vs as [|v vs IH]; intros st.
  - simpl. repeat split; auto; tauto.
  - unfold mark_used. cbn [fold_left]. fold (@mark_used Op E).
    destruct v as [k0 i0|e].
    + destruct (IH (with_unused st k0 (remove i0 (unused st k0)))) as (P1 & P2 & P3 & P4).
      split; [exact P1|]. split; [exact P2|]. split; [exact P3|]. intros k. destruct (P4 k) as [Q1 Q2]. clear P4.
      unfold with_unused, on in Q1, Q2. simpl in Q1, Q2. cbn [regs_of flat_map]. destruct (kind_eqb k k0) eqn:X.
      * apply kind_eqb_eq in X. subst k0. rewrite kind_eqb_refl in *. split; [intros N; apply Q1; apply remove_nodup; auto|].
        intros i. rewrite Q2, in_remove_iff. cbn [app In]. fold (regs_of k vs). split; [intros [[? ?] ?]; split; auto; intros [->|?]; auto|intros [? N]; repeat split; auto].
      * assert (Y : kind_eqb k0 k = false) by (destruct (kind_eqb k0 k) eqn:Y; auto; apply kind_eqb_eq in Y; subst; rewrite kind_eqb_refl in X; discriminate).
        rewrite Y. split; [exact Q1|exact Q2].
    + exact (IH st).
Qed.
Lemma mark_unused_spec : forall vs (st : state),
  size (mark_unused st vs) = size st /\ wires (mark_unused st vs) = wires st /\ cmds (mark_unused st vs) = cmds st /\
  forall k, (NoDup (unused st k) -> NoDup (unused (mark_unused st vs) k)) /\ forall i, In i (unused (mark_unused st vs) k) <-> In i (unused st k) \/ In i (regs_of k vs).
Proof.
  induction vs as [|v vs IH]; intros st.
  - simpl. repeat split; auto; tauto.
  - unfold mark_unused. cbn [fold_left]. fold (@mark_unused Op E).
    destruct v as [k0 i0|e].
    + destruct (IH (with_unused st k0 (insert i0 (unused st k0)))) as (P1 & P2 & P3 & P4).
      split; [exact P1|]. split; [exact P2|]. split; [exact P3|]. intros k. destruct (P4 k) as [Q1 Q2]. clear P4.
      unfold with_unused, on in Q1, Q2. simpl in Q1, Q2. cbn [regs_of flat_map]. destruct (kind_eqb k k0) eqn:X.
      * apply kind_eqb_eq in X. subst k0. rewrite kind_eqb_refl in *. split; [intros N; apply Q1; apply insert_nodup; auto|].
        intros i. rewrite Q2, in_insert_iff. cbn [app In]. fold (regs_of k vs). split; [intros [[->|?]|?]; auto|intros [?|[->|?]]; auto].
      * assert (Y : kind_eqb k0 k = false) by (destruct (kind_eqb k0 k) eqn:Y; auto; apply kind_eqb_eq in Y; subst; rewrite kind_eqb_refl in X; discriminate).
        rewrite Y. split; [exact Q1|exact Q2].
    + exact (IH st).
Qed.

(** ** Free registers *)
Definition free (st : state) (k : kind) (i : nat) : Prop := In i (unused st k) \/ size st k <= i.
Record wf (st : state) : Prop := { wf_nodup : forall k, NoDup (unused st k); wf_size : forall k i, In i (unused st k) -> i < size st k }.

Lemma new_unit_spec : forall st k st' i, wf st -> new_unit st k = (st', i) ->
  wf st' /\ wires st' = wires st /\ cmds st' = cmds st /\ free st k i /\ (forall k', size st k' <= size st' k') /\ i < size st' k /\
  (forall j, free st' k j <-> free st k j /\ j <> i) /\ (forall k', k' <> k -> size st' k' = size st k' /\ unused st' k' = unused st k').
Proof.
  intros st k st' i [W1 W2]. unfold new_unit. destruct (smallest (unused st k)) as [m|] eqn:X; intros H; injection H as <- <-.
  - apply smallest_in in X. assert (L := W2 k m X).
    assert (U : forall k', unused (with_unused st k (remove m (unused st k))) k' = if kind_eqb k' k then remove m (unused st k) else unused st k') by reflexivity.
    split; [|split; [reflexivity|split; [reflexivity|split; [left; auto|split; [auto|split; [exact L|split]]]]]].
    + constructor; intros k'; rewrite U; destruct (kind_eqb k' k) eqn:Y.
      * apply remove_nodup. auto.
      * auto.
      * apply kind_eqb_eq in Y. subst k'. intros i I. apply in_remove_iff in I. simpl. apply W2. apply I.
      * intros i I. simpl. apply W2. auto.
    + intros j. unfold free. rewrite U, kind_eqb_refl, in_remove_iff. simpl. split; [intros [[? ?]|?]; split; auto; lia|intros [[?|?] ?]; auto].
    + intros k' N. split; [reflexivity|]. rewrite U. destruct (kind_eqb k' k) eqn:Y; auto. apply kind_eqb_eq in Y. contradiction.
  - apply smallest_none in X. simpl.
    split; [|split; [reflexivity|split; [reflexivity|split; [right; auto|split; [|split; [|split]]]]]].
    + constructor; simpl; [auto|]. intros k' i I. specialize (W2 k' i I). destruct (kind_eqb k' k) eqn:Y; auto. apply kind_eqb_eq in Y. subst. lia.
    + intros k'. destruct (kind_eqb k' k) eqn:Y; auto. apply kind_eqb_eq in Y. subst. lia.
    + rewrite kind_eqb_refl. lia.
    + intros j. unfold free. simpl. rewrite kind_eqb_refl, X. simpl. split; [intros [[]|?]; split; [right; lia|lia]|intros [[[]|?] ?]; right; lia].
    + intros k' N. destruct (kind_eqb k' k) eqn:Y; auto. apply kind_eqb_eq in Y. contradiction.
Qed.
Lemma new_units_spec : forall n st k st' l, wf st -> new_units st k n = (st', l) ->
  wf st' /\ wires st' = wires st /\ cmds st' = cmds st /\ length l = n /\ NoDup l /\ (forall i, In i l -> free st k i /\ i < size st' k) /\
  (forall k', size st k' <= size st' k') /\
  (forall j, free st' k j <-> free st k j /\ ~ In j l) /\ (forall k', k' <> k -> size st' k' = size st k' /\ unused st' k' = unused st k').
Proof.
  induction n as [|n IH]; intros st k st' l W H; cbn [new_units] in H.
  - injection H as <- <-. split; [exact W|]. split; [reflexivity|]. split; [reflexivity|]. split; [reflexivity|]. split; [constructor|]. split; [intros i []|]. split; [auto|]. split; [intros j; simpl; tauto|auto].
  - destruct (new_unit st k) as [s1 i] eqn:X. destruct (new_units s1 k n) as [s2 l1] eqn:Y. injection H as <- <-.
    destruct (new_unit_spec st k s1 i W X) as (A1 & A2 & A3 & A4 & A5 & A6 & A7 & A8).
    destruct (IH s1 k s2 l1 A1 Y) as (B1 & B2 & B3 & B4 & B5 & B6 & B7 & B8 & B9).
    split; [exact B1|]. split; [congruence|]. split; [congruence|]. split; [simpl; lia|].
    split. { constructor; auto. intros F. apply B6 in F. destruct F as [F _]. apply A7 in F. tauto. }
    split. { intros j [<-|I]; [split; auto; specialize (B7 k); lia|]. apply B6 in I. destruct I as [F L]. apply A7 in F. tauto. }
    split. { intros k'. specialize (A5 k'). specialize (B7 k'). lia. }
    split. { intros j. rewrite B8, A7. simpl. split; [intros [[? ?] ?]; split; auto; intros [?|?]; auto|intros [? N]; repeat split; auto]. }
    intros k' N. destruct (A8 k' N), (B9 k' N). split; congruence.
Qed.

Lemma find_wire_in : forall (l : list (wire * (list value * nat))) w x, find_wire l w = Some x -> In (w, x) l.
Proof. induction l as [|[y v] l IH]; simpl; intros w x H; [discriminate|]. destruct (Nat.eqb y w) eqn:X; [apply Nat.eqb_eq in X; injection H as <-; subst; auto|auto]. Qed.
Lemma in_find_wire : forall (l : list (wire * (list value * nat))) w x, NoDup (map fst l) -> In (w, x) l -> find_wire l w = Some x.
Proof.
  induction l as [|[y v] l IH]; simpl; intros w x N I; [destruct I|]. inversion N; subst. destruct I as [I|I].
  - injection I as -> ->. rewrite Nat.eqb_refl. reflexivity.
  - destruct (Nat.eqb y w) eqn:X; [|auto]. apply Nat.eqb_eq in X. subst. exfalso. apply H1. apply (in_map fst) in I. exact I.
Qed.
Lemma find_wire_none : forall (l : list (wire * (list value * nat))) w, find_wire l w = None <-> ~ In w (map fst l).
Proof.
  induction l as [|[y v] l IH]; simpl; intros w; [tauto|]. destruct (Nat.eqb y w) eqn:X.
  - apply Nat.eqb_eq in X. subst. split; [discriminate|intros N; exfalso; apply N; auto].
  - apply Nat.eqb_neq in X. rewrite IH. split; [intros N [?|?]; auto|intros N F; apply N; auto].
Qed.
Lemma drop_wire_in : forall (l : list (wire * (list value * nat))) w x y, In (x, y) (drop_wire l w) <-> In (x, y) l /\ x <> w.
Proof. intros. unfold drop_wire. rewrite filter_In, negb_true_iff. cbn [fst]. rewrite Nat.eqb_neq. reflexivity. Qed.
Lemma drop_wire_nodup : forall (l : list (wire * (list value * nat))) w, NoDup (map fst l) -> NoDup (map fst (drop_wire l w)) /\ ~ In w (map fst (drop_wire l w)).
Proof.
  induction l as [|[y v] l IH]; simpl; intros w N; [split; [constructor|auto]|]. inversion N; subst. destruct (IH w H2) as [P1 P2].
  destruct (Nat.eqb y w) eqn:X; simpl; [auto|]. apply Nat.eqb_neq in X. split.
  - constructor; auto. intros F. apply H1. apply in_map_iff in F. destruct F as ([a b] & Q & F). simpl in Q. subst. apply filter_In in F. apply in_map_iff. exists (y, b). split; auto. apply F.
  - intros [?|?]; auto.
Qed.
End Pieces.
Arguments free {Op E}. Arguments wf {Op E}.
