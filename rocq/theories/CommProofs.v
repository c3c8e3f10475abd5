(** The greedy commutation pass preserves the meaning of the circuit. *)
From Coq Require Import List Bool Arith Lia Permutation FunctionalExtensionality.
From Verif Require Import QComplex QState OpsModel GateSpec QSysSpec CommModel CommSpec CommAlg.
Import ListNotations.
Open Scope nat_scope.
Local Notation S := Datatypes.S.

(** ** Lists *)
Lemma set_nth_length : forall A i (v : A) l, length (set_nth i v l) = length l.
Proof. induction i; destruct l; simpl; auto. Qed.
Lemma set_nth_same : forall A i (v d : A) l, i < length l -> nth i (set_nth i v l) d = v.
Proof. induction i; destruct l; simpl; intros; try lia; auto. apply IHi. lia. Qed.
Lemma set_nth_other : forall A i j (v d : A) l, i <> j -> nth j (set_nth i v l) d = nth j l d.
Proof. induction i; destruct l, j; simpl; intros; try lia; auto. Qed.
Lemma set_nth_oob : forall A i (v : A) l, length l <= i -> set_nth i v l = l.
Proof. induction i; destruct l; simpl; intros; try lia; auto. rewrite IHi; auto. lia. Qed.

Lemma filter_app_ : forall A (f : A -> bool) l m, filter f (l ++ m) = filter f l ++ filter f m.
Proof. intros. apply filter_app. Qed.
Lemma filter_none : forall A (f : A -> bool) l, (forall x, In x l -> f x = false) -> filter f l = [].
Proof. induction l; simpl; intros H; auto. rewrite H by auto. apply IHl. auto. Qed.

(** ** Lists of commands with the same wires *)
Section Trace.
Variable sem : nat -> state -> state.
Definition disj (c d : com) : Prop := forall q, acts q c = true -> acts q d = true -> False.
Definition nodesem (c : com) : state -> state := sem (c_node c).
Variable R : list com.
Hypothesis disj_comm : forall c d, In c R -> In d R -> disj c d -> commute (nodesem c) (nodesem d).

Lemma run_app : forall l m psi, run_commands sem (l ++ m) psi = run_commands sem m (run_commands sem l psi).
Proof. intros. unfold run_commands, steps. rewrite map_app, fold_left_app. reflexivity. Qed.
Lemma run_cons : forall c l psi, run_commands sem (c :: l) psi = run_commands sem l (nodesem c psi).
Proof. reflexivity. Qed.

Lemma move_front : forall A c psi, (forall a, In a A -> commute (nodesem c) (nodesem a)) ->
  run_commands sem (A ++ [c]) psi = run_commands sem (c :: A) psi.
Proof.
  induction A as [|a A IH]; intros c psi H; [reflexivity|].
  simpl app. rewrite run_cons, IH by (intros; apply H; right; assumption).
  rewrite !run_cons. rewrite (H a (or_introl eq_refl) psi). reflexivity.
Qed.

Lemma same_wires_run : forall L L', NoDup L -> NoDup L' -> incl L R -> incl L' R ->
  (forall c, In c L -> exists q, acts q c = true) -> (forall c, In c L' -> exists q, acts q c = true) ->
  (forall q, filter (acts q) L = filter (acts q) L') -> forall psi, run_commands sem L psi = run_commands sem L' psi.
Proof.
  induction L as [|c L IH]; intros L' N N' I I' Q Q' E psi.
  - destruct L' as [|d L']; [reflexivity|]. destruct (Q' d (or_introl eq_refl)) as [q Hq].
    specialize (E q). simpl in E. rewrite Hq in E. discriminate.
  - assert (Hin : In c L').
    { destruct (Q c (or_introl eq_refl)) as [q Hq]. specialize (E q). simpl in E. rewrite Hq in E.
      assert (X : In c (filter (acts q) L')) by (rewrite <- E; left; reflexivity).
      apply filter_In in X. apply X. }
    destruct (in_split _ _ Hin) as (A & B & ->).
    assert (NA : ~ In c A /\ ~ In c B /\ NoDup (A ++ B)).
    { apply NoDup_remove in N'. destruct N' as [N1 N2]. repeat split; auto; intro; apply N2; apply in_or_app; auto. }
    destruct NA as (NA & NB & NAB).
    assert (DA : forall q, acts q c = true -> filter (acts q) A = []).
    { intros q Hq. specialize (E q). simpl in E. rewrite Hq in E. rewrite filter_app_ in E.
      destruct (filter (acts q) A) as [|a A'] eqn:FA; [reflexivity|]. exfalso. simpl in E. injection E as <- _.
      apply NA. assert (X : In c (filter (acts q) A)) by (rewrite FA; left; reflexivity). apply filter_In in X. apply X. }
    replace (A ++ c :: B) with ((A ++ [c]) ++ B) by (rewrite <- app_assoc; reflexivity).
    rewrite run_app, move_front.
    2:{ intros a Ha. apply disj_comm; [apply I; left; reflexivity|apply I'; apply in_or_app; auto|].
        intros q Hc Hd. assert (X : In a (filter (acts q) A)) by (apply filter_In; auto). rewrite (DA q Hc) in X. destruct X. }
    rewrite <- run_app. simpl app. rewrite !run_cons. apply IH.
    + inversion N; assumption.
    + assumption.
    + intros x Hx. apply I. right. assumption.
    + intros x Hx. apply I'. apply in_app_or in Hx. apply in_or_app. simpl. tauto.
    + intros x Hx. apply Q. right. assumption.
    + intros x Hx. apply Q'. apply in_app_or in Hx. apply in_or_app. simpl. tauto.
    + intro q. specialize (E q). rewrite filter_app_ in *. simpl in E. destruct (acts q c) eqn:Hq; [|exact E].
      rewrite (DA q Hq) in *. simpl in *. injection E as E. exact E.
Qed.

(** Moving a command before commands it commutes with. *)
Lemma move_run : forall X M c Y psi, (forall a, In a M -> commute (nodesem c) (nodesem a)) ->
  run_commands sem (X ++ M ++ c :: Y) psi = run_commands sem (X ++ c :: M ++ Y) psi.
Proof.
  intros X M c Y psi H. rewrite (run_app X (M ++ c :: Y)), (run_app X (c :: M ++ Y)). replace (M ++ c :: Y) with ((M ++ [c]) ++ Y) by (rewrite <- app_assoc; reflexivity).
  replace (c :: M ++ Y) with ((c :: M) ++ Y) by reflexivity. rewrite (run_app (M ++ [c]) Y), (run_app (c :: M) Y), move_front by assumption. reflexivity.
Qed.
End Trace.

(** ** Slices *)
Lemma acts_in : forall q c, acts q c = true <-> In (Linear q) (c_inputs c).
Proof. intros. unfold acts. destruct in_dec; split; intros; auto; discriminate. Qed.
Lemma qubits_in_ : forall q c, In q (qubits c) <-> In (Linear q) (c_inputs c).
Proof.
  intros. unfold qubits. rewrite in_flat_map. split.
  - intros (u & Hu & Hq). destruct u; [|destruct Hq]. destruct Hq as [->|[]]. assumption.
  - intro H. exists (Linear q). split; [assumption|left; reflexivity].
Qed.
Lemma acts_qubits : forall q c, acts q c = true <-> In q (qubits c).
Proof. intros. rewrite acts_in, qubits_in_. reflexivity. Qed.

Lemma com_eqb_eq : forall a b, com_eqb a b = true <-> a = b.
Proof. intros. unfold com_eqb. destruct com_eq_dec; split; congruence. Qed.

(** A slice is consistent if it holds each of its commands on all of its qubits. *)
Definition sl_ok (n : nat) (s : slice) : Prop :=
  length s = n /\ forall q c, nth q s None = Some c -> In q (qubits c) /\ forall r, In r (qubits c) -> nth r s None = Some c.

Lemma unique_spec : forall s seen, NoDup (unique seen s) /\ (forall c, In c (unique seen s) <-> In (Some c) s /\ ~ In c seen).
Proof.
  induction s as [|[d|] s IH]; intros seen; simpl.
  - split; [constructor|]. tauto.
  - destruct (existsb (com_eqb d) seen) eqn:E.
    + destruct (IH seen) as [A B]. split; [assumption|]. intro c. rewrite B. split; [tauto|]. intros [[H|H] N]; [|tauto].
      injection H as ->. exfalso. apply N. apply existsb_exists in E. destruct E as (x & Hx & E). apply com_eqb_eq in E. subst. assumption.
    + destruct (IH (d :: seen)) as [A B]. split.
      * constructor; [|assumption]. rewrite B. simpl. tauto.
      * intro c. simpl. rewrite B. simpl. split.
        -- intros [->|H]; [|tauto]. split; [auto|]. intro X. assert (Y : existsb (com_eqb c) seen = true) by (apply existsb_exists; exists c; split; [assumption|apply com_eqb_eq; reflexivity]). congruence.
        -- intros [[H|H] N]; [injection H; auto|]. destruct (com_eq_dec d c); [auto|]. right. split; [assumption|]. intros [?|?]; [congruence|tauto].
  - destruct (IH seen) as [A B]. split; [assumption|]. intro c. rewrite B. split; [tauto|]. intros [[H|H] N]; [discriminate|tauto].
Qed.
Lemma slice_commands_in : forall s c, In c (slice_commands s) <-> exists q, nth q s None = Some c.
Proof.
  intros s c. unfold slice_commands. destruct (unique_spec s []) as [_ H]. rewrite H. split.
  - intros [X _]. apply In_nth with (d := None) in X. destruct X as (q & _ & E). eauto.
  - intros [q E]. split; [|intros []]. rewrite <- E. apply nth_In. destruct (le_lt_dec (length s) q); [|assumption]. rewrite nth_overflow in E by assumption. discriminate.
Qed.
Lemma slice_commands_nodup : forall s, NoDup (slice_commands s).
Proof. intro. apply (unique_spec s []). Qed.

Lemma filter_single : forall A (f : A -> bool) l c, NoDup l -> In c l -> (forall d, In d l -> f d = true <-> d = c) -> filter f l = [c].
Proof.
  induction l as [|x l IH]; intros c N H F; [destruct H|]. simpl. inversion N; subst. destruct H as [->|H].
  - rewrite (proj2 (F c (or_introl eq_refl)) eq_refl). f_equal. apply filter_none. intros d Hd.
    destruct (f d) eqn:E; [|reflexivity]. apply F in E; [|right; assumption]. subst. tauto.
  - destruct (f x) eqn:E.
    + apply F in E; [|left; reflexivity]. subst. tauto.
    + apply IH; auto. intros d Hd. apply F. right. assumption.
Qed.

Definition olist {A : Type} (o : option A) : list A := match o with Some x => [x] | None => [] end.
Lemma slice_wire : forall n s q, sl_ok n s -> filter (acts q) (slice_commands s) = olist (nth q s None).
Proof.
  intros n s q [_ K]. destruct (nth q s None) as [c|] eqn:E; simpl.
  - apply filter_single; [apply slice_commands_nodup|apply slice_commands_in; eauto|]. intros d Hd. rewrite acts_qubits.
    apply slice_commands_in in Hd. destruct Hd as [r Hr]. destruct (K r d Hr) as [_ A]. split.
    + intro H. apply A in H. congruence.
    + intros ->. apply (K q). assumption.
  - apply filter_none. intros d Hd. apply slice_commands_in in Hd. destruct Hd as [r Hr]. destruct (K r d Hr) as [_ A].
    destruct (acts q d) eqn:X; [|reflexivity]. apply acts_qubits, A in X. congruence.
Qed.

(** The commands of the slices in order, and the column of a qubit. *)
Definition lin (sl : list slice) : list com := flat_map slice_commands sl.
Definition col (sl : list slice) (q : nat) : list com := flat_map (fun s => olist (nth q s None)) sl.
Lemma lin_wire : forall n sl q, Forall (sl_ok n) sl -> filter (acts q) (lin sl) = col sl q.
Proof.
  intros n sl q H. induction H as [|s sl K _ IH]; [reflexivity|]. unfold lin, col in *. simpl. rewrite filter_app_, IH, (slice_wire n) by assumption. reflexivity.
Qed.
Lemma col_app : forall a b q, col (a ++ b) q = col a q ++ col b q.
Proof. intros. unfold col. apply flat_map_app. Qed.
Lemma lin_app : forall a b, lin (a ++ b) = lin a ++ lin b.
Proof. intros. unfold lin. apply flat_map_app. Qed.
Lemma in_lin : forall sl c, In c (lin sl) <-> exists i q, slot sl i q = Some c.
Proof.
  intros sl c. unfold lin, slot. rewrite in_flat_map. split.
  - intros (s & Hs & Hc). apply In_nth with (d := []) in Hs. destruct Hs as (i & _ & <-). apply slice_commands_in in Hc. destruct Hc as [q E]. eauto.
  - intros (i & q & E). destruct (le_lt_dec (length sl) i) as [L|L].
    + rewrite (nth_overflow sl) in E by assumption. destruct q; discriminate.
    + exists (nth i sl []). split; [apply nth_In; assumption|]. apply slice_commands_in. eauto.
Qed.
