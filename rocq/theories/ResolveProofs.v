(** Proofs about chains, signatures, control qubits, loops and links. *)
From Coq Require Import List Arith Bool Lia NArith Permutation.
From Verif Require Import ResolveModel ResolveSpec.
Import ListNotations.

(** ** Chains *)

Lemma total_app : forall a b, total (a ++ b) = total a + total b.
Proof. induction a; simpl; intros; auto. rewrite IHa. lia. Qed.

Lemma trace_spec : forall chain c,
  control (trace_chain c chain) = control c + total (sizes chain) /\
  accum_ctrl (trace_chain c chain) = accum_ctrl c ++ sizes chain /\
  dagger (trace_chain c chain) = xorb (dagger c) (odd_daggers chain).
Proof.
  induction chain as [|m r IH]; intros c.
  - simpl. rewrite app_nil_r, xorb_false_r. auto.
  - unfold trace_chain in *. simpl. destruct (IH (push c m)) as (A & B & C). rewrite A, B, C.
    destruct m; simpl; rewrite <- ?app_assoc; repeat split; auto; try lia.
    destruct (dagger c), (odd_daggers r); auto.
Qed.

Lemma trace_app : forall a b c, trace_chain c (a ++ b) = trace_chain (trace_chain c a) b.
Proof. intros. apply fold_left_app. Qed.

(** The combined modifier stands for the chain applied under the modifiers before it. *)
Lemma stands_push : forall (A : algebra) c m u,
  m <> Power -> same A (stands_for A (push c m) u) (stands_for A c (denote A [m] u)).
Proof.
  intros A c m u N. unfold stands_for. destruct m; simpl; [| |congruence].
  - apply (same_trans A _ (ctrl A (control c) (ctrl A n (if dagger c then dag A u else u)))).
    + apply same_sym, ctrl_add.
    + apply ctrl_same. destruct (dagger c); [apply same_sym, dag_ctrl|apply same_refl].
  - apply ctrl_same. destruct (dagger c); simpl; [apply same_sym, dag_dag|apply same_refl].
Qed.

Lemma stands_chain : forall (A : algebra) chain c u, ~ In Power chain ->
  same A (stands_for A (trace_chain c chain) u) (stands_for A c (denote A chain u)).
Proof.
  intros A. induction chain as [|m r IH]; intros c u N.
  - apply same_refl.
  - change (trace_chain c (m :: r)) with (trace_chain (push c m) r).
    apply (same_trans A _ (stands_for A (push c m) (denote A r u))).
    + apply IH. intros H. apply N. simpl. auto.
    + assert (M : m <> Power) by (intros ->; apply N; simpl; auto).
      apply (same_trans A _ _ _ (stands_push A c m (denote A r u) M)).
      destruct m; apply same_refl.
Qed.

Lemma stands_none : forall (A : algebra) chain u, ~ In Power chain ->
  same A (stands_for A (trace_chain no_modifier chain) u) (denote A chain u).
Proof.
  intros. apply (same_trans A _ (stands_for A no_modifier (denote A chain u))).
  - apply stands_chain; auto.
  - unfold stands_for. simpl. apply ctrl_0.
Qed.

Lemma flags_round : forall f, from_metadata (Some (set_metadata f)) = Some f.
Proof. intros [[] [] []]; reflexivity. Qed.

Lemma satisfies_own : forall c, satisfies (from_combined c) c = true.
Proof. intros [[|n] a [] []]; reflexivity. Qed.

Lemma satisfies_or : forall f g c, satisfies f c = true -> satisfies (flags_or f g) c = true.
Proof.
  intros f [g|] c H; auto. unfold satisfies, flags_or in *. simpl.
  destruct (Nat.eqb (control c) 0), (dagger c), (power c), (f_control f), (f_dagger f), (f_power f);
    simpl in *; auto; discriminate.
Qed.

Lemma new_metadata_ok : forall c old, exists f, from_metadata (Some (new_metadata c old)) = Some f /\
  satisfies f c = true /\
  (forall g c', from_metadata old = Some g -> satisfies g c' = true -> satisfies f c' = true).
Proof.
  intros c old. eexists. unfold new_metadata. rewrite flags_round. split; [reflexivity|]. split.
  - apply satisfies_or, satisfies_own.
  - intros g c' E H. rewrite E. unfold satisfies, flags_or in *. simpl.
    destruct (Nat.eqb (control c') 0), (dagger c'), (power c'), (f_control g), (f_dagger g), (f_power g),
      (Nat.ltb 0 (control c)), (dagger c), (power c); simpl in *; auto; discriminate.
Qed.

(** ** Control qubits *)

Section Controls.
Variable wire : Type.

Lemma pack_ok : forall sz (cs : list wire), total sz <= length cs ->
  exists l, pack_controls wire sz cs = Some l /\ map (@length _) l = sz /\
    concat l = firstn (total sz) cs.
Proof.
  induction sz as [|n r IH]; intros cs H; simpl in *.
  - exists []. auto.
  - assert (E : Nat.ltb (length cs) n = false) by (apply Nat.ltb_ge; lia). rewrite E.
    destruct (IH (skipn n cs)) as (l & P & M & C); [rewrite skipn_length; lia|].
    rewrite P. exists (firstn n cs :: l). split; auto. simpl. rewrite M, C, firstn_length.
    split; [f_equal; lia|].
    rewrite <- (firstn_skipn n cs) at 3. rewrite firstn_app, firstn_length.
    rewrite (firstn_all2 (firstn n cs)) by (rewrite firstn_length; lia).
    f_equal. f_equal. lia.
Qed.

Lemma pack_none : forall sz (cs : list wire), length cs < total sz -> pack_controls wire sz cs = None.
Proof.
  induction sz as [|n r IH]; intros cs H; simpl in *; [lia|].
  destruct (Nat.ltb (length cs) n) eqn:E; auto. apply Nat.ltb_ge in E.
  rewrite IH; auto. rewrite skipn_length. lia.
Qed.

Lemma unpack_ok : forall (l : list (list wire)),
  unpack_controls wire (map (@length _) l) l = Some (concat l).
Proof. induction l; simpl; auto. rewrite Nat.eqb_refl, IHl. auto. Qed.

Lemma pop_push : forall c (cs : list wire) w, pop_control wire (push_control wire (c, cs) w) = Some (w, (c, cs)).
Proof.
  intros. unfold pop_control, push_control. simpl. rewrite rev_app_distr. simpl. rewrite rev_involutive.
  destruct c; simpl. rewrite Nat.add_sub. auto.
Qed.

Lemma pop_number : forall c (cs : list wire) w s, control c = length cs ->
  pop_control wire (c, cs) = Some (w, s) -> control (fst s) = length (snd s) /\ cs = snd s ++ [w].
Proof.
  unfold pop_control. simpl. intros c cs w s E H. destruct (rev cs) as [|x r] eqn:R; [discriminate|].
  inversion H; subst. simpl.
  assert (C : cs = rev r ++ [w]) by (rewrite <- (rev_involutive cs), R; reflexivity).
  rewrite E, C, app_length. simpl. split; auto. lia.
Qed.
End Controls.

(** ** Signatures *)

Lemma modify_row_rev : forall l r, fold_left (fun r n => QArray n :: r) l r = map QArray (rev l) ++ r.
Proof.
  induction l as [|n l IH]; intros; simpl; auto. rewrite IH, map_app. simpl. rewrite <- app_assoc. auto.
Qed.

Lemma declared_sizes : forall chain r, declared_row chain r = map QArray (sizes chain) ++ r.
Proof. induction chain as [|[]]; intros; simpl; auto. rewrite IHchain. auto. Qed.

Lemma unpack_types_prefix : forall sz sz' r, length sz = length sz' ->
  unpack_types sz (map QArray sz' ++ r) = true <-> sz = sz'.
Proof.
  induction sz as [|n sz IH]; intros [|m sz'] r L; simpl in *; try discriminate.
  - tauto.
  - rewrite andb_true_iff, Nat.eqb_eq, IH by lia. split; [intros [-> ->]; auto|intros E; inversion E; auto].
Qed.

Lemma map_QArray_inj : forall a b, map QArray a = map QArray b -> a = b.
Proof. induction a; intros [|y b] E; simpl in *; try discriminate; auto. inversion E. f_equal; auto. Qed.

Lemma sig_unpack : forall chain r,
  unpack_types (accum_ctrl (trace_chain no_modifier chain)) (modify_row (trace_chain no_modifier chain) false r) = true
  <-> sizes chain = rev (sizes chain).
Proof.
  intros. unfold modify_row. destruct (trace_spec chain no_modifier) as (_ & E & _).
  rewrite E. simpl. rewrite modify_row_rev. apply unpack_types_prefix. rewrite rev_length. auto.
Qed.

Lemma sig_declared : forall chain r,
  modify_row (trace_chain no_modifier chain) false r = declared_row chain r <-> sizes chain = rev (sizes chain).
Proof.
  intros. unfold modify_row. destruct (trace_spec chain no_modifier) as (_ & E & _).
  rewrite E. simpl. rewrite modify_row_rev, declared_sizes. split; intros H.
  - apply app_inv_tail in H. apply map_QArray_inj in H. auto.
  - rewrite <- H. auto.
Qed.

Lemma indirect_match : forall outer inner r,
  indirect_loaded (trace_chain no_modifier outer) inner r
    = indirect_expected (trace_chain no_modifier outer) (declared_row inner r) <->
  rev (sizes inner) ++ rev (sizes outer) = rev (sizes outer) ++ sizes inner.
Proof.
  intros. unfold indirect_loaded, indirect_expected, modify_row.
  destruct (trace_spec inner (trace_chain no_modifier outer)) as (_ & E & _). rewrite E.
  destruct (trace_spec outer no_modifier) as (_ & E' & _). rewrite E'. simpl.
  rewrite !modify_row_rev, declared_sizes, rev_app_distr, app_assoc, <- map_app. split; intros H.
  - apply app_inv_tail in H. apply map_QArray_inj in H. auto.
  - rewrite H. auto.
Qed.

(** ** Loops *)

Lemma nth_repeat : forall (x : type) n i, i < n -> nth_error (repeat x n) i = Some x.
Proof. induction n; intros [|i] H; simpl; try lia; auto. apply IHn. lia. Qed.

Lemma repeat_snoc : forall (x : type) n, repeat x n ++ [x] = x :: repeat x n.
Proof. induction n; simpl; congruence. Qed.

Lemma commute_repeat : forall (x : type) n l, n <> 0 -> l ++ repeat x n = repeat x n ++ l ->
  l = repeat x (length l).
Proof.
  intros x n l N. induction l as [|y l IH]; simpl; auto. intros H.
  destruct n; [congruence|]. simpl in H. inversion H; subst. f_equal. apply IH.
  simpl. rewrite H2. change (repeat x n ++ x :: l) with (repeat x n ++ [x] ++ l).
  rewrite app_assoc, repeat_snoc. reflexivity.
Qed.

Lemma loop_iff : forall ji rest n,
  ((forall i, i < n -> nth_error (loop_inputs ji rest n) (loop_control_port ji i) = Some Qubit) /\
   (forall i t, nth_error (ji ++ rest) i = Some t ->
      nth_error (loop_inputs ji rest n) (loop_port ji n i) = Some t)) <->
  (n = 0 \/ rest = repeat Qubit (length rest)).
Proof.
  intros ji rest n. unfold loop_inputs, loop_control_port, loop_port. split.
  - intros [H1 H2]. destruct n as [|k]; [auto|right]. set (n := S k) in *.
    apply (commute_repeat Qubit n); [discriminate|].
    assert (E : forall i, nth_error (rest ++ repeat Qubit n) i = nth_error (repeat Qubit n ++ rest) i).
    { intros i. destruct (lt_dec i n) as [L|L].
      - rewrite (nth_error_app1 (repeat _ _)) by (rewrite repeat_length; auto).
        rewrite nth_repeat by auto. specialize (H1 i L). rewrite nth_error_app2 in H1 by lia.
        replace (i + length ji - length ji) with i in H1 by lia. auto.
      - rewrite (nth_error_app2 (repeat _ _)) by (rewrite repeat_length; lia).
        rewrite repeat_length. destruct (nth_error rest (i - n)) as [t|] eqn:T.
        + specialize (H2 (length ji + (i - n)) t). rewrite nth_error_app2 in H2 by lia.
          replace (length ji + (i - n) - length ji) with (i - n) in H2 by lia. specialize (H2 T).
          assert (B : Nat.ltb (length ji + (i - n)) (length ji) = false) by (apply Nat.ltb_ge; lia).
          rewrite B, nth_error_app2 in H2 by lia.
          replace (length ji + (i - n) + n - length ji) with i in H2 by lia. auto.
        + apply nth_error_None in T. apply nth_error_None. rewrite app_length, repeat_length. lia. }
    clear - E. revert E. generalize (rest ++ repeat Qubit n) (repeat Qubit n ++ rest).
    induction l as [|x l IH]; intros [|y l'] E; auto.
    + specialize (E 0). discriminate.
    + specialize (E 0). discriminate.
    + assert (E0 := E 0). simpl in E0. inversion E0; subst. f_equal. apply IH.
      intros i. exact (E (S i)).
  - intros [->|E].
    + split; [intros; lia|]. intros i t H. simpl. rewrite app_nil_r.
      destruct (Nat.ltb i (length ji)); rewrite ?Nat.add_0_r; auto.
    + split.
      * intros i L. rewrite nth_error_app2 by lia.
        replace (i + length ji - length ji) with i by lia.
        rewrite E, <- repeat_app. apply nth_repeat. lia.
      * intros i t H. destruct (Nat.ltb i (length ji)) eqn:B.
        -- apply Nat.ltb_lt in B. rewrite nth_error_app1 in * by auto. auto.
        -- apply Nat.ltb_ge in B. rewrite nth_error_app2 in * by lia.
           assert (L : i - length ji < length rest) by (apply nth_error_Some; congruence).
           rewrite E in H |- *. rewrite nth_repeat in H by (rewrite ?repeat_length; lia).
           rewrite <- repeat_app, nth_repeat by (rewrite ?repeat_length; lia). auto.
Qed.

(** ** Links *)

Definition placed (l : list item) (b : builder) := fold_left (fun b it => place it b) l b.
Definition sizes_of (l : list item) := fold_right (fun it n => size it + n) 0 l.
Definition calls_of := fix go (l : list item) (base : nat) : list (nat * nat) :=
  match l with [] => [] | it :: r => calls it base ++ go r (base + size it) end.
Definition tidy_of := fix go (l : list item) : bool :=
  match l with
  | [] => true
  | it :: r => tidy it && go r && (match calls it 0 with [] => true | _ => negb (has_region r) end)
  end.

Fixpoint depth (it : item) : nat :=
  match it with Region l => S (fold_right (fun it n => Nat.max (depth it) n) 0 l) | _ => 0 end.

Lemma item_ind2 : forall (P : item -> Prop),
  (forall f, P (Call f)) -> P Plain -> (forall l, Forall P l -> P (Region l)) -> forall it, P it.
Proof.
  intros P H1 H2 H3. fix IH 1. intros [f|l|]; [apply H1| |apply H2].
  apply H3. induction l; constructor; auto.
Qed.

Lemma calls_base : forall it base k, calls it (base + k) = map (fun e => (fst e, snd e + k)) (calls it base).
Proof.
  induction it as [f| |l H] using item_ind2; intros; simpl; auto.
  change (calls_of l (base + k + 3) = map (fun e => (fst e, snd e + k)) (calls_of l (base + 3))).
  replace (base + k + 3) with (base + 3 + k) by lia. generalize (base + 3). clear base.
  induction H as [|it r H0 H1 IH]; intros base; simpl; auto.
  rewrite map_app, H0, <- IH. f_equal. f_equal. lia.
Qed.
Lemma calls_of_base : forall l base k, calls_of l (base + k) = map (fun e => (fst e, snd e + k)) (calls_of l base).
Proof.
  induction l as [|it r IH]; intros; simpl; auto. rewrite map_app, calls_base, <- IH. f_equal. f_equal. lia.
Qed.

Lemma place_nodes : forall it b, nodes (place it b) = nodes b + size it.
Proof.
  induction it as [f| |l H] using item_ind2; intros b; simpl; try lia.
  f_equal. change (nodes (placed l {| nodes := 3; call_map := call_map b |}) = 3 + sizes_of l).
  generalize (call_map b). change 3 with (3 + 0) at 2. clear b.
  assert (G : forall b, nodes (placed l b) = nodes b + sizes_of l).
  { induction H as [|it r H0 H1 IH]; intros b; simpl; [lia|].
    unfold placed in *. simpl. rewrite IH, H0. lia. }
  intros m. rewrite G. reflexivity.
Qed.
Lemma placed_nodes : forall l b, nodes (placed l b) = nodes b + sizes_of l.
Proof.
  induction l as [|it r IH]; intros b; simpl; [lia|]. unfold placed in *. simpl. rewrite IH, place_nodes. lia.
Qed.

Lemma call_bounds : forall it base e, In e (calls it base) -> base <= snd e < base + size it.
Proof.
  induction it as [f| |l H] using item_ind2; intros base e; simpl; try tauto.
  - intros [<-|[]]. simpl. lia.
  - change (In e (calls_of l (base + 3)) -> base <= snd e < base + (3 + sizes_of l)).
    assert (G : forall b, In e (calls_of l b) -> b <= snd e < b + sizes_of l).
    { induction H as [|it r H0 H1 IH]; intros b; simpl; [tauto|]. rewrite in_app_iff.
      intros [K|K]; [apply H0 in K|apply IH in K]; lia. }
    intros K. apply G in K. lia.
Qed.
Lemma calls_of_bounds : forall l base e, In e (calls_of l base) -> base <= snd e < base + sizes_of l.
Proof.
  induction l as [|it r IH]; intros b e; simpl; [tauto|]. rewrite in_app_iff.
  intros [K|K]; [apply call_bounds in K|apply IH in K]; lia.
Qed.

Lemma filter_fresh : forall f (m : list (nat * nat)), ~ In f (map fst m) ->
  filter (fun e => negb (fst e =? f)) m = m.
Proof.
  intros f m N. induction m as [|[g x] m IHm]; simpl; auto. simpl in N.
  destruct (Nat.eqb g f) eqn:E.
  - apply Nat.eqb_eq in E. subst. exfalso. apply N. left. auto.
  - simpl. f_equal. apply IHm. intros K. apply N. right. auto.
Qed.

Lemma has_region_place : forall l b, has_region l = false ->
  NoDup (map fst (call_map b ++ calls_of l (nodes b))) ->
  Permutation (call_map (placed l b)) (call_map b ++ calls_of l (nodes b)).
Proof.
  induction l as [|it r IH]; intros b H N.
  - simpl. rewrite app_nil_r. apply Permutation_refl.
  - destruct it as [f|body|]; simpl in H; [|discriminate|]; unfold placed; simpl in *;
      rewrite Nat.add_1_r in *.
    + assert (F : ~ In f (map fst (call_map b ++ calls_of r (S (nodes b))))).
      { rewrite map_app in *. simpl in N. apply NoDup_remove_2 in N. exact N. }
      assert (E : call_insert (call_map b) f (nodes b) = (f, nodes b) :: call_map b).
      { unfold call_insert. rewrite filter_fresh; auto. intros K. apply F.
        rewrite map_app. apply in_or_app. auto. }
      rewrite E.
      etransitivity; [apply (IH {| nodes := S (nodes b); call_map := (f, nodes b) :: call_map b |} H)|].
      * simpl. constructor; auto. rewrite map_app in *. simpl in N. apply NoDup_remove_1 in N. exact N.
      * simpl. apply Permutation_middle.
    + apply (IH {| nodes := S (nodes b); call_map := call_map b |} H N).
Qed.

Lemma update_all : forall m n base, (forall e, In e m -> snd e < n) ->
  update_call_map m n base = map (fun e => (fst e, base + snd e)) m.
Proof.
  intros m n base H. unfold update_call_map. induction m as [|e m IH]; simpl; auto.
  assert (L : snd e < n) by (apply H; left; auto). apply Nat.ltb_lt in L. rewrite L. simpl. f_equal.
  apply IH. intros e' K. apply H. right. auto.
Qed.

Lemma map_fst_shift : forall k (l : list (nat * nat)), map fst (map (fun e => (fst e, snd e + k)) l) = map fst l.
Proof. intros. rewrite map_map. apply map_ext. auto. Qed.

Lemma region_map : forall l b, (forall m, m = call_map (placed l {| nodes := 3; call_map := [] |}) ->
    Permutation m (calls_of l 3)) ->
  Permutation (update_call_map (call_map (placed l {| nodes := 3; call_map := [] |}))
     (nodes (placed l {| nodes := 3; call_map := [] |})) b) (calls_of l (b + 3)).
Proof.
  intros l b H. specialize (H _ eq_refl). rewrite placed_nodes. simpl nodes.
  rewrite update_all.
  - rewrite (Permutation_map _ H). rewrite Nat.add_comm, calls_of_base.
    apply Permutation_refl'. apply map_ext. intros [f x]. simpl. f_equal. lia.
  - intros e K. apply (Permutation_in _ H) in K. apply calls_of_bounds in K. lia.
Qed.

Lemma tidy_placed : forall l,
  Forall (fun it => forall n, tidy it = true -> NoDup (map fst (calls it n)) ->
    Permutation (call_map (place it {| nodes := n; call_map := [] |})) (calls it n)) l ->
  forall n, tidy_of l = true -> NoDup (map fst (calls_of l n)) ->
  Permutation (call_map (placed l {| nodes := n; call_map := [] |})) (calls_of l n).
Proof.
  intros l H. induction H as [|it r H0 H1 IH]; intros n T N; [apply Permutation_refl|].
  simpl in T. apply andb_true_iff in T. destruct T as [T C]. apply andb_true_iff in T. destruct T as [T1 T2].
  simpl in N. rewrite map_app in N. unfold placed. simpl.
  assert (N1 : NoDup (map fst (calls it n))).
  { clear - N. induction (map fst (calls it n)); simpl in *; constructor; inversion N; subst; auto.
    intros K. apply H1. apply in_or_app. auto. }
  assert (N2 : NoDup (map fst (calls_of r (n + size it)))).
  { clear - N. induction (map fst (calls it n)); simpl in *; auto. inversion N; auto. }
  assert (P := H0 n T1 N1). assert (S := place_nodes it {| nodes := n; call_map := [] |}). simpl nodes in S.
  destruct (place it {| nodes := n; call_map := [] |}) as [k m]. simpl in P, S. subst k.
  destruct (calls it 0) as [|e0 r0] eqn:Z.
  - assert (E : calls it n = []).
    { assert (G := calls_base it 0 n). rewrite Z in G. exact G. }
    rewrite E in *. apply Permutation_sym, Permutation_nil in P. subst m. simpl. apply IH; auto.
  - apply negb_true_iff in C.
    etransitivity; [apply (has_region_place r {| nodes := n + size it; call_map := m |} C)|]; simpl.
    + rewrite map_app. eapply Permutation_NoDup; [|exact N]. apply Permutation_app_tail.
      apply Permutation_map, Permutation_sym, P.
    + apply Permutation_app_tail, P.
Qed.

Lemma tidy_place : forall it n, tidy it = true -> NoDup (map fst (calls it n)) ->
  Permutation (call_map (place it {| nodes := n; call_map := [] |})) (calls it n).
Proof.
  induction it as [f| |l H] using item_ind2; intros n T N; simpl; auto.
  change (Permutation (update_call_map (call_map (placed l {| nodes := 3; call_map := [] |}))
     (nodes (placed l {| nodes := 3; call_map := [] |})) n) (calls_of l (n + 3))).
  apply region_map. intros m ->. apply tidy_placed; auto.
  change (NoDup (map fst (calls_of l (n + 3)))) in N.
  rewrite Nat.add_comm, calls_of_base, map_fst_shift in N. exact N.
Qed.

Lemma links_ok : forall body base, tidy (Region body) = true -> NoDup (map fst (calls (Region body) base)) ->
  Permutation (link_calls body base) (calls (Region body) base).
Proof.
  intros. exact (tidy_place (Region body) base H H0).
Qed.
