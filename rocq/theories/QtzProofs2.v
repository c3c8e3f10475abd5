(** Proofs about the loader for circuits written by quartz: circuits and classes. *)
From Coq Require Import String List Bool Arith Lia Permutation FinFun.
From Verif Require Import QtzModel QtzSpec QtzProofs.
Import ListNotations.

(** ** Validation *)
Lemma kinds_iff : forall l r, kinds_eqb l r = true <-> l = map Some r.
Proof.
  induction l as [|[a|] l IH]; intros [|b r]; simpl; try (split; [discriminate|congruence]); try tauto.
  rewrite andb_true_iff, IH. split; [intros (E & ->); destruct a, b; try discriminate; reflexivity|]. intros E. injection E as -> ->. split; [destruct b; reflexivity|reflexivity].
Qed.
Lemma wire_listed : forall c w k, wire_kind c w = Some k -> In w (all_wires c).
Proof.
  intros c [i|n p] k E; unfold all_wires; apply in_app_iff; simpl in E.
  - left. apply in_map_iff. exists i. split; [reflexivity|]. apply in_seq. destruct (i <? c_qubits c) eqn:A; [apply Nat.ltb_lt in A; lia|]. destruct (i <? c_qubits c + c_params c) eqn:B; [apply Nat.ltb_lt in B; lia|discriminate].
  - right. destruct (nth_error (c_nodes c) n) as [[o ws]|] eqn:J; [|discriminate]. apply in_concat. exists (map (WOut n) (seq 0 (length (sig_out o)))). split.
    + apply in_map_iff. exists n. rewrite J. split; [reflexivity|]. apply in_seq. split; [lia|]. apply nth_error_Some. congruence.
    + apply in_map_iff. exists p. split; [reflexivity|]. apply in_seq. split; [lia|]. apply nth_error_Some. congruence.
Qed.
Lemma validate_iff : forall c, validate c = true <-> well_typed c.
Proof.
  intros c. unfold validate, well_typed. rewrite !andb_true_iff, !forallb_forall, kinds_iff. split.
  - intros ((A & B) & C). split; [intros o ws J; apply kinds_iff; exact (A (o, ws) J)|]. split; [now rewrite B, map_repeat'|].
    intros w K. specialize (C w (wire_listed c w _ K)). rewrite K in C. now apply Nat.eqb_eq in C.
  - intros (A & B & C). split; [split|].
    + intros (o, ws) J. apply kinds_iff. apply A, J.
    + now rewrite B, map_repeat'.
    + intros w _. destruct (wire_kind c w) as [[|]|] eqn:K; auto. apply Nat.eqb_eq. apply C, K.
Qed.

(** ** The beginning *)
Lemma get_app : forall (A : Type) (l r : list (name * A)) x, get (l ++ r) x = match get l x with Some u => Some u | None => get r x end.
Proof. intros A. induction l as [|(y, u) l IH]; intros r x; [reflexivity|]. simpl. destruct (name_eqb x y); auto. Qed.
Lemma get_none : forall (A : Type) (f : nat -> name) (h : nat -> A) x l, (forall i, In i l -> f i <> x) -> get (map (fun i => (f i, h i)) l) x = None.
Proof.
  intros A f h x. induction l as [|i l IH]; intros H; [reflexivity|]. simpl. rewrite name_eqb_neq; [apply IH; intros j J; apply H; right; exact J|]. intros E. apply (H i (or_introl eq_refl)). congruence.
Qed.
Lemma get_seq : forall (A : Type) (f : nat -> name) (h : nat -> A) i l, (forall a b, f a = f b -> a = b) -> In i l -> get (map (fun i => (f i, h i)) l) (f i) = Some (h i).
Proof.
  intros A f h i. induction l as [|j l IH]; intros INJ J; [destruct J|]. simpl. destruct (name_eqb (f i) (f j)) eqn:E; [apply name_eqb_iff in E; apply INJ in E; now subst|].
  destruct J as [->|J]; [rewrite name_eqb_refl in E; discriminate|auto].
Qed.
Lemma get_start_q : forall d i, i < n_qb d -> get (units (start d)) (Q i) = Some (Linear i).
Proof.
  intros d i L. simpl. rewrite get_app, (get_none _ P) by (intros j _; discriminate). apply (get_seq _ Q); [congruence|]. apply in_seq. lia.
Qed.
Lemma get_start_p : forall d i, i < n_input_param d -> get (units (start d)) (P i) = Some (Wire (WIn (n_qb d + i))).
Proof.
  intros d i L. simpl. rewrite get_app, (get_seq _ P (fun i => Wire (WIn (n_qb d + i))) i); [reflexivity|congruence|]. apply in_seq. lia.
Qed.
Lemma stat_start : forall d, stat (n_qb d) (n_input_param d) (start d) (map P (seq 0 (n_input_param d))).
Proof.
  intros d. constructor.
  - simpl. now rewrite map_length, seq_length.
  - intros i L. now apply get_start_q.
  - intros x J. apply in_map_iff in J as (i & <- & J). apply in_seq in J. split; [intros j _ E; discriminate|]. exists (WIn (n_qb d + i)). split; [apply get_start_p; lia|].
    unfold kind_in. simpl. destruct (n_qb d + i <? n_qb d) eqn:A; [apply Nat.ltb_lt in A; lia|]. assert (B : (n_qb d + i <? n_qb d + n_input_param d) = true) by (apply Nat.ltb_lt; lia). now rewrite B.
  - intros o ws [].
  - simpl. apply Forall_forall. intros w J. apply in_map_iff in J as (i & <- & J). apply in_seq in J. unfold kind_in. simpl. assert (B : (i <? n_qb d) = true) by (apply Nat.ltb_lt; lia). now rewrite B.
  - intros w K. unfold kind_in in K. destruct w as [i|n p]; simpl in K; [|destruct n; discriminate K]. destruct (i <? n_qb d) eqn:A; [|destruct (i <? n_qb d + n_input_param d); discriminate K]. apply Nat.ltb_lt in A. simpl.
    apply NoDup_count_occ'; [apply Injective_map_NoDup; [intros a b E; congruence|apply seq_NoDup]|]. apply in_map_iff. exists i. split; [reflexivity|]. apply in_seq. lia.
Qed.
Lemma dyn_start : forall d (V : Type) (dflt : V) sem inputs, length inputs = n_qb d + n_input_param d ->
  dyn (n_qb d) dflt sem inputs (start d) (map P (seq 0 (n_input_param d))) (env0 d inputs).
Proof.
  intros d V dflt sem inputs L. constructor.
  - intros i LI. simpl. assert (B : (i <? n_qb d) = true) by (apply Nat.ltb_lt; lia). rewrite B. rewrite map_nth, seq_nth by lia. simpl. apply nth_error_nth'. lia.
  - intros x w J G. apply in_map_iff in J as (i & <- & J). apply in_seq in J. rewrite get_start_p in G by lia. injection G as <-. simpl.
    assert (B : (i <? n_input_param d) = true) by (apply Nat.ltb_lt; lia). rewrite B. apply nth_error_nth'. lia.
Qed.
Lemma load_ok : forall d, well_formed d -> exists c, load d = Some c /\ well_typed c /\ c_qubits c = n_qb d /\ c_params c = n_input_param d /\
  forall (V : Type) (dflt : V) sem inputs, arity sem -> length inputs = n_qb d + n_input_param d -> quartz sem d inputs = Some (eval dflt sem c inputs).
Proof.
  intros d W. destruct (load_all (n_qb d) (n_input_param d) _ _ W (start d) (stat_start d)) as (s & scope & L & T & R).
  pose (c := {| c_qubits := n_qb d; c_params := n_input_param d; c_nodes := built s; c_outputs := wires s |}).
  assert (KC : forall w, wire_kind c w = kind_in (n_qb d) (n_input_param d) s w) by (intros w; apply kind_outs).
  assert (WT : well_typed c).
  { split; [intros o ws J; rewrite <- (t_nodes _ _ _ _ T o ws J); apply map_ext; exact KC|]. split.
    - rewrite (map_app_some _ _ _ _ Qubit); [simpl c_outputs; now rewrite (t_length _ _ _ _ T)|]. intros w J. rewrite KC. pose proof (t_wires _ _ _ _ T) as TW. rewrite Forall_forall in TW. auto.
    - intros w K. rewrite count_occ_app. apply (t_once _ _ _ _ T). now rewrite <- KC. }
  exists c. split; [|split; [exact WT|split; [reflexivity|split; [reflexivity|]]]].
  - unfold load. rewrite L. fold c. apply validate_iff in WT. now rewrite WT.
  - intros V dflt sem inputs AR LI. destruct (R V dflt sem inputs _ AR (dyn_start d V dflt sem inputs LI)) as (e & E & [YQ _]).
    unfold quartz. rewrite E. unfold eval. cbn [c_nodes c_outputs c]. apply all_some_f2.
    rewrite <- (t_length _ _ _ _ T). pose proof (t_length _ _ _ _ T) as TL. rewrite <- TL in YQ. clear - YQ. revert YQ. generalize (values dflt sem inputs (built s)). generalize (wires s). intros ws vs.
    assert (G : forall l k, (forall i, i < length l -> e (Q (k + i)) = Some (value dflt inputs vs (nth i l (WIn 0)))) -> Forall2 (fun i v => e (Q i) = Some v) (seq k (length l)) (map (value dflt inputs vs) l)).
    { induction l as [|w l IH]; intros k H; constructor; [specialize (H 0 ltac:(simpl; lia)); now rewrite Nat.add_0_r in H|]. apply IH. intros i L. specialize (H (S i) ltac:(simpl; lia)). now rewrite Nat.add_succ_comm. }
    intros H. apply G. exact H.
Qed.
Lemma load_typed : forall d c, load d = Some c -> well_typed c.
Proof. intros d c E. unfold load in E. destruct (load_ops _ _); [|discriminate]. match type of E with (if validate ?x then _ else _) = _ => destruct (validate x) eqn:VV; [|discriminate]; injection E as <-; now apply validate_iff end. Qed.

(** ** Classes *)
Section Insert.
Context {A : Type}.
Implicit Types m l : list (nat * A).
Fixpoint find_id m (k : nat) : option A := match m with [] => None | (j, u) :: m => if k =? j then Some u else find_id m k end.
Lemma insert_new : forall m k (v : A), ~ In k (map fst m) -> insert m k v = m ++ [(k, v)].
Proof.
  induction m as [|(j, u) m IH]; intros k v NI; [reflexivity|]. simpl in *. destruct (k =? j) eqn:E; [apply Nat.eqb_eq in E; subst; exfalso; apply NI; left; reflexivity|]. f_equal. apply IH. tauto.
Qed.
Lemma inserts_new : forall l m, NoDup (map fst (m ++ l)) -> fold_left (fun m (e : nat * A) => insert m (fst e) (snd e)) l m = m ++ l.
Proof.
  induction l as [|(k, v) l IH]; intros m ND; [now rewrite app_nil_r|]. simpl. rewrite insert_new.
  - rewrite IH; rewrite <- app_assoc; [reflexivity|exact ND].
  - rewrite map_app in ND. simpl in ND. apply NoDup_remove_2 in ND. intros J. apply ND. apply in_app_iff. auto.
Qed.
Lemma find_insert : forall m k (v : A) j, find_id (insert m k v) j = if j =? k then Some v else find_id m j.
Proof.
  induction m as [|(i, u) m IH]; intros k v j; [reflexivity|]. simpl. destruct (k =? i) eqn:E; simpl.
  - apply Nat.eqb_eq in E. subst i. destruct (j =? k); reflexivity.
  - rewrite IH. destruct (j =? i) eqn:F; [|reflexivity]. apply Nat.eqb_eq in F. subst j. rewrite Nat.eqb_sym, E. reflexivity.
Qed.
Lemma find_inserts : forall l m j, find_id (fold_left (fun m (e : nat * A) => insert m (fst e) (snd e)) l m) j =
  match find_id (rev l) j with Some v => Some v | None => find_id m j end.
Proof.
  assert (FA : forall l r j, find_id (l ++ r) j = match find_id l j with Some v => Some v | None => find_id r j end).
  { induction l as [|(i, u) l IH]; intros r j; [reflexivity|]. simpl. destruct (j =? i); auto. }
  induction l as [|(k, v) l IH]; intros m j; [reflexivity|]. simpl. rewrite IH, find_insert, FA. destruct (find_id (rev l) j); [reflexivity|]. simpl. destruct (j =? k); reflexivity.
Qed.
End Insert.
Lemma class_inv : forall l k cs, load_class l = Some (k, cs) -> (exists d r rest, l = d :: r /\ ids d = k :: rest) /\ Forall2 (fun d c => load d = Some c) l cs.
Proof.
  intros l k cs E. unfold load_class in E. destruct l as [|d r]; [discriminate|]. destruct (ids d) as [|i rest] eqn:I; [discriminate|]. destruct (all_some (map load (d :: r))) as [cs'|] eqn:S; [|discriminate]. injection E as <- <-.
  split; [exists d, r, rest; auto|]. now apply all_some_inv.
Qed.
Lemma class_ok : forall d r k rest cs, ids d = k :: rest -> Forall2 (fun d c => load d = Some c) (d :: r) cs -> load_class (d :: r) = Some (k, cs).
Proof. intros d r k rest cs I F. unfold load_class. rewrite I, (all_some_f2 _ _ _ F). reflexivity. Qed.

(** Every command becomes one node. *)
Lemma map_op_inv : forall s o, map_op s = Some o -> op_name o = s.
Proof.
  intros s o. unfold map_op.
  repeat match goal with |- context [String.eqb s ?k] => destruct (String.eqb_spec s k) as [->|_]; [intros E; injection E as <-; reflexivity|] end.
  discriminate.
Qed.
Lemma load_ops_names : forall l s s', load_ops s l = Some s' ->
  map (fun n => op_name (fst n)) (built s') = map (fun n => op_name (fst n)) (built s) ++ map opstr l.
Proof.
  induction l as [|c l IH]; intros s s' E; simpl in E; [injection E as <-; now rewrite app_nil_r|].
  destruct (load_op s c) as [s1|] eqn:L; [|discriminate]. rewrite (IH _ _ E). unfold load_op in L.
  destruct (map_op (opstr c)) as [o|] eqn:M; [|discriminate]. destruct (all_some _) as [us|]; [|discriminate].
  unfold append in L. destruct (all_some (map (unit_wire (wires s)) us)) as [ws|]; [|discriminate].
  destruct (place us (wires s) _) as (w, rest). injection L as <-. cbn [built]. rewrite map_app. cbn [map fst]. rewrite (map_op_inv _ _ M), <- app_assoc. reflexivity.
Qed.
Lemma load_names : forall d c, load d = Some c -> map (fun n => op_name (fst n)) (c_nodes c) = map opstr (circ d).
Proof.
  intros d c E. unfold load in E. destruct (load_ops (start d) (circ d)) as [s|] eqn:L; [|discriminate].
  match type of E with (if ?b then _ else _) = _ => destruct b; [|discriminate] end. injection E as <-. cbn [c_nodes]. apply (load_ops_names _ _ _ L).
Qed.
