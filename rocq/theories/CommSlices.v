(** Moves between slices and along wires. *)
From Coq Require Import List Bool Arith Lia Permutation FunctionalExtensionality.
From Verif Require Import QComplex QState OpsModel GateSpec QSysSpec CommModel CommSpec CommAlg CommProofs.
Import ListNotations.
Open Scope nat_scope.
Local Notation S := Datatypes.S.

(** ** Adding a command to a slice and taking it away *)
Definition fill (qs : list nat) (v : option com) (s : slice) : slice := fold_left (fun s q => set_nth q v s) qs s.
Lemma fill_length : forall qs v s, length (fill qs v s) = length s.
Proof. induction qs; intros; simpl; [reflexivity|]. unfold fill in *. simpl. rewrite IHqs. apply set_nth_length. Qed.
Lemma fill_nth : forall qs v s r, (forall q, In q qs -> q < length s) ->
  nth r (fill qs v s) None = if in_dec Nat.eq_dec r qs then v else nth r s None.
Proof.
  induction qs as [|q qs IH]; intros v s r H; [reflexivity|]. unfold fill. simpl fold_left. fold (fill qs v (set_nth q v s)).
  rewrite IH by (intros; rewrite set_nth_length; apply H; right; assumption).
  destruct (in_dec Nat.eq_dec r qs) as [I|I]; destruct (in_dec Nat.eq_dec r (q :: qs)) as [I'|I'].
  - reflexivity.
  - exfalso. apply I'. right. assumption.
  - destruct I' as [->|I']; [|tauto]. apply set_nth_same. apply H. left. reflexivity.
  - apply set_nth_other. intros ->. apply I'. left. reflexivity.
Qed.
Lemma add_to_slice_fill : forall s c, add_to_slice s c = fill (qubits c) (Some c) s.
Proof. reflexivity. Qed.

Lemma add_ok : forall n s c, sl_ok n s -> (forall q, In q (qubits c) -> q < n /\ nth q s None = None) -> qubits c <> [] ->
  sl_ok n (add_to_slice s c) /\ Permutation (slice_commands (add_to_slice s c)) (c :: slice_commands s).
Proof.
  intros n s c [L K] H N. rewrite add_to_slice_fill.
  assert (F : forall r, nth r (fill (qubits c) (Some c) s) None = if in_dec Nat.eq_dec r (qubits c) then Some c else nth r s None).
  { intro r. apply fill_nth. intros q Hq. rewrite L. apply H. assumption. }
  split; [split|].
  - rewrite fill_length. assumption.
  - intros q d E. rewrite F in E. destruct (in_dec Nat.eq_dec q (qubits c)) as [I|I].
    + injection E as <-. split; [assumption|]. intros r Hr. rewrite F. destruct (in_dec Nat.eq_dec r (qubits c)); tauto.
    + destruct (K q d E) as [A B]. split; [assumption|]. intros r Hr. rewrite F. destruct (in_dec Nat.eq_dec r (qubits c)) as [J|J]; [|apply B; assumption].
      apply B in Hr. destruct (H r J) as [_ X]. congruence.
  - apply NoDup_Permutation; [apply slice_commands_nodup| |].
    + constructor; [|apply slice_commands_nodup]. rewrite slice_commands_in. intros [q E]. destruct (K q c E) as [A _]. destruct (H q A). congruence.
    + intro d. simpl. rewrite !slice_commands_in. split.
      * intros [q E]. rewrite F in E. destruct (in_dec Nat.eq_dec q (qubits c)); [left; congruence|right; eauto].
      * intros [->|[q E]].
        -- destruct (qubits d) as [|q r] eqn:Q; [congruence|]. exists q. rewrite F. destruct (in_dec Nat.eq_dec q (q :: r)) as [|X]; [reflexivity|]. exfalso. apply X. left. reflexivity.
        -- exists q. rewrite F. destruct (in_dec Nat.eq_dec q (qubits c)) as [I|I]; [|assumption]. destruct (H q I). congruence.
Qed.

Lemma clear_ok : forall n s c q0, sl_ok n s -> nth q0 s None = Some c ->
  sl_ok n (fill (qubits c) None s) /\ Permutation (slice_commands s) (c :: slice_commands (fill (qubits c) None s)).
Proof.
  intros n s c q0 [L K] H. destruct (K q0 c H) as [Q0 KC].
  assert (F : forall r, nth r (fill (qubits c) None s) None = if in_dec Nat.eq_dec r (qubits c) then None else nth r s None).
  { intro r. apply fill_nth. intros q Hq. apply KC in Hq. destruct (le_lt_dec (length s) q); [|assumption]. rewrite nth_overflow in Hq by assumption. discriminate. }
  split; [split|].
  - rewrite fill_length. assumption.
  - intros q d E. rewrite F in E. destruct (in_dec Nat.eq_dec q (qubits c)) as [I|I]; [discriminate|].
    destruct (K q d E) as [A B]. split; [assumption|]. intros r Hr. rewrite F. destruct (in_dec Nat.eq_dec r (qubits c)) as [J|J]; [|apply B; assumption].
    exfalso. apply B in Hr. rewrite (KC r J) in Hr. injection Hr as <-. tauto.
  - apply NoDup_Permutation; [apply slice_commands_nodup| |].
    + constructor; [|apply slice_commands_nodup]. rewrite slice_commands_in. intros [q E]. rewrite F in E.
      destruct (in_dec Nat.eq_dec q (qubits c)) as [I|I]; [discriminate|]. apply I. apply (K q). assumption.
    + intro d. simpl. rewrite !slice_commands_in. split.
      * intros [q E]. destruct (com_eq_dec c d) as [->|Ne]; [left; reflexivity|]. right. exists q. rewrite F.
        destruct (in_dec Nat.eq_dec q (qubits c)) as [I|I]; [|assumption]. rewrite (KC q I) in E. congruence.
      * intros [<-|[q E]]; [eauto|]. rewrite F in E. destruct (in_dec Nat.eq_dec q (qubits c)); [discriminate|eauto].
Qed.

(** ** Splitting the slices *)
Lemma split1 : forall A (l : list A) i, i < length l -> exists X x Y, l = X ++ x :: Y /\ length X = i.
Proof.
  intros A l i H. destruct (nth_error l i) as [x|] eqn:E; [|apply nth_error_None in E; lia].
  apply nth_error_split in E. destruct E as (X & Y & E1 & E2). eauto.
Qed.
Lemma set_nth_app : forall A (X : list A) x v Y, set_nth (length X) v (X ++ x :: Y) = X ++ v :: Y.
Proof. induction X; intros; simpl; [reflexivity|]. rewrite IHX. reflexivity. Qed.
Lemma nth_app_len : forall A (X : list A) x Y d, nth (length X) (X ++ x :: Y) d = x.
Proof. intros. rewrite app_nth2, Nat.sub_diag by lia. reflexivity. Qed.
Lemma set_nth_twice : forall A i (v w : A) l, set_nth i v (set_nth i w l) = set_nth i v l.
Proof. induction i; destruct l; simpl; auto. f_equal. apply IHi. Qed.

Lemma move_slots_split : forall c (A : list slice) (sd : slice) (M : list slice) (si : slice) (R : list slice), NoDup (qubits c) -> (forall q, In q (qubits c) -> nth q si None = Some c) ->
  move_slots c (A ++ sd :: M ++ si :: R) (length A + 1 + length M) (length A) =
  A ++ add_to_slice sd c :: M ++ fill (qubits c) None si :: R.
Proof.
  intros c A sd M si R N H. unfold move_slots. rewrite add_to_slice_fill. generalize (Some c) as v, H. clear H. intro v.
  revert sd si N. induction (qubits c) as [|q qs IH]; intros sd si N H; [reflexivity|].
  inversion N as [|? ? Nq N']; subst. cbn [fold_left].
  set (src := length A + 1 + length M).
  assert (Ps : forall x y, nth src (A ++ x :: M ++ y :: R) [] = y).
  { intros. replace (A ++ x :: M ++ y :: R) with ((A ++ x :: M) ++ y :: R) by (rewrite <- app_assoc; reflexivity).
    replace src with (length (A ++ x :: M)) by (rewrite app_length; simpl; unfold src; lia). apply nth_app_len. }
  assert (Ss : forall x y z, set_nth src z (A ++ x :: M ++ y :: R) = A ++ x :: M ++ z :: R).
  { intros. replace (A ++ x :: M ++ y :: R) with ((A ++ x :: M) ++ y :: R) by (rewrite <- app_assoc; reflexivity).
    replace src with (length (A ++ x :: M)) by (rewrite app_length; simpl; unfold src; lia). rewrite set_nth_app, <- app_assoc. reflexivity. }
  unfold slot at 2. rewrite !Ps, Ss, nth_app_len, set_nth_app, (H q (or_introl eq_refl)).
  rewrite IH; [reflexivity|assumption|].
  intros r Hr. rewrite set_nth_other; [apply H; right; assumption|]. intros ->. tauto.
Qed.

(** ** Finding a slice *)
Section Slices.
Variable optype : nat -> option TketOp.

Definition passes (c : com) (s : slice) : Prop :=
  forall q other, In q (qubits c) -> nth q s None = Some other ->
    exists p p', entry_on optype c q = Some p /\ entry_on optype other q = Some p' /\ commutes_with p p' = true.
Lemma qget_app : forall m m' q, qget (m ++ m') q = match qget m q with Some x => Some x | None => qget m' q end.
Proof. induction m as [|[r x] m IH]; intros; [reflexivity|]. unfold qget in *. simpl. destruct (Nat.eqb r q); [reflexivity|apply IH]. Qed.
Lemma commutes_on_spec : forall c sl i qs m, commutes_on optype c sl i qs = Some m ->
  (forall q other, In q qs -> slot sl i q = Some other ->
    exists p p', entry_on optype c q = Some p /\ entry_on optype other q = Some p' /\ commutes_with p p' = true) /\
  (forall q, In q qs -> qget m q = slot sl i q).
Proof.
  induction qs as [|q qs IH]; intros m E; [split; intros ? *; intros []|]. cbn [commutes_on] in E.
  destruct (slot sl i q) as [o|] eqn:So.
  - destruct (entry_on optype c q) as [p|] eqn:Ec; [|discriminate]. destruct (entry_on optype o q) as [p'|] eqn:Eo; [|discriminate].
    destruct (commutes_with p p') eqn:Cm; [|discriminate]. destruct (commutes_on optype c sl i qs) as [m'|]; [|discriminate].
    injection E as <-. destruct (IH m' eq_refl) as [A B]. split.
    + intros r other [<-|I] Sr; [|apply A; assumption]. rewrite So in Sr. injection Sr as <-. eauto.
    + intros r I. unfold qget. simpl. destruct (Nat.eqb_spec q r) as [->|Ne]; [symmetry; assumption|].
      destruct I as [->|I]; [congruence|]. apply B. assumption.
  - destruct (IH m E) as [A B]. split.
    + intros r other [<-|I] Sr; [congruence|]. apply A; assumption.
    + intros r [->|I]; [|apply B; assumption]. rewrite So.
      clear -E So. revert m E. induction qs as [|x qs IH]; intros m E; cbn [commutes_on] in E; [injection E as <-; reflexivity|].
      destruct (slot sl i x) as [o|] eqn:Sx; [|apply IH; assumption].
      destruct (entry_on optype c x); [|discriminate]. destruct (entry_on optype o x); [|discriminate].
      destruct (commutes_with p p0); [|discriminate]. destruct (commutes_on optype c sl i qs) as [m'|]; [|discriminate]. injection E as <-.
      unfold qget. simpl. destruct (Nat.eqb_spec x r) as [->|Ne]; [congruence|]. apply IH. reflexivity.
Qed.

Definition between (sl : list slice) (a b : nat) : list slice := skipn a (firstn b sl).
Lemma between_cons : forall sl k b, k < b -> b <= length sl -> between sl k b = nth k sl [] :: between sl (S k) b.
Proof.
  intros sl k b. unfold between. revert k b. induction sl as [|s sl IH]; intros k b H L; [simpl in L; lia|].
  destruct b as [|b]; [lia|]. cbn [firstn]. destruct k as [|k]; [reflexivity|]. cbn [skipn nth]. rewrite IH; [reflexivity|lia|simpl in L; lia].
Qed.

Definition empty_on (c : com) (s : slice) : Prop := forall q, In q (qubits c) -> nth q s None = None.
Lemma all_empty_spec : forall c sl i, all_empty c sl i = true <-> empty_on c (nth i sl []).
Proof.
  intros. unfold all_empty, empty_on, slot. rewrite forallb_forall. split; intros H q Hq; specialize (H q Hq); destruct (nth q (nth i sl []) None); congruence.
Qed.
Definition good (c : com) (sl : list slice) (i : nat) (r : nat * qmap) : Prop :=
  fst r <= i /\ empty_on c (nth (fst r) sl []) /\ Forall (passes c) (between sl (S (fst r)) (S i)) /\
  (forall q, In q (qubits c) -> qget (snd r) q = hd_error (col (between sl (S (fst r)) (S i)) q)).
Lemma available_good : forall c sl i k prev av, k <= i -> i < length sl ->
  (match av with Some r => good c sl i r | None => True end) ->
  Forall (passes c) (between sl (S k) (S i)) ->
  (forall q, In q (qubits c) -> qget prev q = hd_error (col (between sl (S k) (S i)) q)) ->
  match available_slice optype c sl k prev av with Some r => good c sl i r | None => True end.
Proof.
  intros c sl i. induction k as [|k IH]; intros prev av Lk Li Hav HF HP; cbn [available_slice].
  - destruct (all_empty c sl 0) eqn:E; [|exact Hav]. apply all_empty_spec in E. repeat split; auto; simpl; lia.
  - destruct (all_empty c sl (S k)) eqn:E.
    + assert (Em : empty_on c (nth (S k) sl [])) by (apply all_empty_spec; assumption).
      apply IH; [lia|assumption| | |].
      * repeat split; auto.
      * rewrite between_cons by lia. constructor; [|assumption]. intros q o Hq So. rewrite (Em q Hq) in So. discriminate.
      * intros q Hq. rewrite between_cons by lia. unfold col. cbn [flat_map]. rewrite (Em q Hq). apply HP. assumption.
    + destruct (commutes_at_slice optype c sl (S k)) as [m|] eqn:Ec; [|exact Hav].
      apply commutes_on_spec in Ec. destruct Ec as [A B].
      apply IH; [lia|assumption|assumption| |].
      * rewrite between_cons by lia. constructor; [|assumption]. intros q o Hq So. eapply A; [assumption|exact So].
      * intros q Hq. rewrite between_cons by lia. unfold col. cbn [flat_map]. rewrite qget_app, (B q Hq). unfold slot.
        destruct (nth q (nth (S k) sl []) None); [reflexivity|]. apply HP. assumption.
Qed.

(** ** Moving a node along the wires *)
Lemma insert_before_app : forall x y A B, ~ In y A -> insert_before x y (A ++ y :: B) = Some (A ++ x :: y :: B).
Proof.
  induction A as [|a A IH]; intros B H; simpl.
  - rewrite Nat.eqb_refl. reflexivity.
  - destruct (Nat.eqb_spec a y) as [->|]; [exfalso; apply H; left; reflexivity|]. rewrite IH by (intro; apply H; right; assumption). reflexivity.
Qed.
Lemma remove_not_in : forall x l, ~ In x l -> remove Nat.eq_dec x l = l.
Proof. intros. apply notin_remove. assumption. Qed.
Lemma wire_move : forall A n M' c R, NoDup (A ++ n :: M' ++ c :: R) ->
  insert_before c n (remove Nat.eq_dec c (A ++ n :: M' ++ c :: R)) = Some (A ++ c :: n :: M' ++ R).
Proof.
  intros A n M' c R N.
  replace (A ++ n :: M' ++ c :: R) with ((A ++ n :: M') ++ c :: R) in * by (rewrite <- app_assoc; reflexivity).
  assert (N2 := N). apply NoDup_remove in N. destruct N as [N1 N3].
  rewrite remove_app. cbn [remove]. destruct (Nat.eq_dec c c) as [_|X]; [|congruence]. rewrite <- remove_app, remove_not_in by assumption.
  rewrite <- app_assoc. cbn [app]. apply insert_before_app.
  rewrite <- app_assoc in N1. cbn [app] in N1. apply NoDup_remove in N1. destruct N1 as [_ N1]. intro. apply N1. apply in_or_app. left. assumption.
Qed.

Lemma pull_forward_spec : forall c nn qs w (f : nat -> list nat), NoDup qs ->
  (forall q, In q qs -> exists nb, qget nn q = Some nb /\
     ((nb = c /\ f q = w q) \/ (nb <> c /\ insert_before (c_node c) (c_node nb) (remove Nat.eq_dec (c_node c) (w q)) = Some (f q)))) ->
  exists w', pull_forward c nn qs w = Some w' /\ forall q, w' q = if in_dec Nat.eq_dec q qs then f q else w q.
Proof.
  induction qs as [|q qs IH]; intros w f N H; [exists w; split; reflexivity|]. inversion N as [|? ? Nq N']; subst. cbn [pull_forward].
  destruct (H q (or_introl eq_refl)) as (nb & E & D). rewrite E.
  assert (Fin : forall w1 w', (forall r, r <> q -> w1 r = w r) -> w1 q = f q ->
     (forall r, w' r = if in_dec Nat.eq_dec r qs then f r else w1 r) ->
     forall r, w' r = if in_dec Nat.eq_dec r (q :: qs) then f r else w r).
  { intros w1 w' H1 H2 H3 r. rewrite H3. destruct (in_dec Nat.eq_dec r qs) as [I|I]; destruct (in_dec Nat.eq_dec r (q :: qs)) as [J|J]; auto.
    - exfalso. apply J. right. assumption.
    - destruct J as [<-|J]; [assumption|tauto].
    - apply H1. intros ->. apply J. left. reflexivity. }
  destruct D as [[-> D]|[D1 D2]].
  - rewrite (proj2 (com_eqb_eq c c) eq_refl). destruct (IH w f N') as (w' & E1 & E2); [intros; apply H; right; assumption|].
    exists w'. split; [assumption|]. apply (Fin w w'); auto.
  - destruct (com_eqb nb c) eqn:X; [apply com_eqb_eq in X; congruence|]. rewrite D2.
    destruct (IH (set_wire w q (f q)) f N') as (w' & E1 & E2).
    + intros r Hr. destruct (H r (or_intror Hr)) as (nb' & E' & D'). exists nb'. split; [assumption|].
      unfold set_wire. destruct (Nat.eqb_spec r q) as [->|]; [tauto|]. exact D'.
    + exists w'. split; [assumption|]. apply (Fin (set_wire w q (f q)) w'); auto; unfold set_wire.
      * intros r Hr. destruct (Nat.eqb_spec r q); congruence.
      * rewrite Nat.eqb_refl. reflexivity.
Qed.
End Slices.
