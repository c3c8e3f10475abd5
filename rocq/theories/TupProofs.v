(** Proofs about the removal of tuples. *)
From Coq Require Import List Bool Arith Lia.
From Verif Require Import PatSpec TupModel TupSpec.
Import ListNotations.

(** ** Lists *)
Lemma filter_len {A} (f : A -> bool) l : length (filter f l) <= length l.
Proof. induction l as [|a l IH]; simpl; auto. destruct (f a); simpl; lia. Qed.
Lemma filter_full {A} (f : A -> bool) l : length (filter f l) = length l -> filter f l = l.
Proof. induction l as [|a l IH]; simpl; auto. destruct (f a); simpl; intros E; [f_equal; auto|]. pose proof (filter_len f l). lia. Qed.
Lemma filter_app_len {A} (f : A -> bool) a b : length (filter f (a ++ b)) = length (filter f a) + length (filter f b).
Proof. rewrite filter_app, app_length. auto. Qed.
Lemma flat_map_len {A B} (f : A -> list B) n l : (forall x, In x l -> length (f x) = n) -> length (flat_map f l) = n * length l.
Proof. induction l as [|a l IH]; simpl; intros E; [lia|]. rewrite app_length, IH, E; auto. lia. Qed.
Lemma nth_flat_map {A B} (f : A -> list B) n l i j d d' : (forall x, In x l -> length (f x) = n) -> j < n -> i < length l ->
  nth (i * n + j) (flat_map f l) d = nth j (f (nth i l d')) d.
Proof.
  revert i. induction l as [|a l IH]; simpl; intros i E J L; [lia|]. destruct i as [|i]; simpl.
  - rewrite app_nth1; auto. rewrite E; auto.
  - rewrite app_nth2 by (rewrite E; auto; lia). rewrite E by auto. replace (n + i * n + j - n) with (i * n + j) by lia. apply IH; auto. lia.
Qed.
Lemma split_nth {A} (x : A) l : In x l -> forall d, exists i, i < length l /\ nth i l d = x.
Proof. intros I d. apply In_nth; auto. Qed.
Lemma flat_map_split {A B} (f : A -> list B) l a y b : (forall x, In x l -> length (f x) <= 1) -> flat_map f l = a ++ y :: b ->
  exists p x q, l = p ++ x :: q /\ f x = [y] /\ a = flat_map f p /\ b = flat_map f q.
Proof.
  revert a. induction l as [|x l IH]; simpl; intros a L E.
  - destruct a; discriminate.
  - pose proof (L x (or_introl eq_refl)) as Lx. destruct (f x) as [|z [|z' zs]] eqn:F; simpl in *; [| |lia].
    + destruct (IH a) as (p & x' & q & -> & F' & -> & ->); auto. exists (x :: p), x', q. simpl. rewrite F. auto.
    + destruct a as [|a0 a]; simpl in E.
      * injection E as E1 E2. subst. exists [], x, l. auto.
      * injection E as E1 E. subst z. destruct (IH a) as (p & x' & q & -> & F' & -> & ->); auto. exists (x :: p), x', q. simpl. rewrite F. auto.
Qed.
Lemma count_map_le {A B} (da : forall x y : A, {x = y} + {x <> y}) (db : forall x y : B, {x = y} + {x <> y}) (f : A -> B) l b v :
  (forall w, In w l -> f w = b -> w = v) -> count_occ db (map f l) b <= count_occ da l v.
Proof.
  induction l as [|w l IH]; simpl; intros E; auto. specialize (IH (fun w' I => E w' (or_intror I))).
  destruct (db (f w) b) as [e|e], (da w v) as [e'|e']; try lia. exfalso. apply e', E; auto.
Qed.
Lemma ids_inj {O} (l : list (node O)) x y : NoDup (map t_id l) -> In x l -> In y l -> t_id x = t_id y -> x = y.
Proof.
  induction l as [|z l IH]; simpl; intros D I J E; [destruct I|]. inversion D as [|? ? N D']; subst. destruct I as [->|I], J as [->|J]; auto.
  - exfalso. apply N. rewrite E. apply in_map; exact J.
  - exfalso. apply N. rewrite <- E. apply in_map; exact I.
Qed.
Lemma memb_in n l : memb n l = true <-> In n l.
Proof. unfold memb. rewrite existsb_exists. split; [intros (x & I & E); apply Nat.eqb_eq in E; subst; auto|intros I; exists n; rewrite Nat.eqb_refl; auto]. Qed.
Lemma memb_not n l : memb n l = false <-> ~ In n l.
Proof. rewrite <- memb_in. destruct (memb n l); intuition congruence. Qed.
Lemma position_none w l : position w l = None <-> ~ In w l.
Proof.
  induction l as [|v l IH]; simpl; [tauto|]. destruct (source_eq_dec w v) as [->|N]; [split; [discriminate|tauto]|].
  destruct (position w l); simpl; split; try discriminate; intros H.
  - destruct IH as [_ IH]. exfalso. assert (Some n = None) by (apply IH; tauto). discriminate.
  - intros [E|E]; [congruence|]. apply IH in E; auto.
  - auto.
Qed.
Lemma position_nodup w l i d : NoDup l -> i < length l -> nth i l d = w -> position w l = Some i.
Proof.
  revert i. induction l as [|v l IH]; simpl; intros i D L E; [lia|]. inversion D as [|? ? N D']; subst. destruct i as [|i].
  - destruct (source_eq_dec v v); congruence.
  - destruct (source_eq_dec (nth i l d) v) as [e|e]; [exfalso; apply N; rewrite <- e; apply nth_In; lia|]. rewrite (IH i); auto. lia.
Qed.

Section Proofs.
Variable O : Type.
Notation node := (node O).
Notation region := (region O).
Variable c : region.
Hypothesis Hv : valid c.
Variable fits : O -> list typ -> list typ -> Prop.
Variable ty : source -> typ.
Hypothesis Ht : typed fits ty c.

Lemma known_own a x b k : t_nodes c = a ++ x :: b -> known (t_inputs c) a (Out (t_id x) k) -> False.
Proof.
  intros E [(j & ? & _)|(y & j & I & [= Ey] & _)]; [discriminate|]. pose proof (va_ids Hv) as D. rewrite E, map_app in D. simpl in D. apply NoDup_remove_2 in D.
  apply D, in_or_app. left. rewrite Ey. apply in_map; auto.
Qed.
Lemma known_app i a b w : known i a w -> @known O i (a ++ b) w.
Proof. intros [K|(y & j & I & E)]; [left; auto|right; exists y, j; split; auto; apply in_or_app; auto]. Qed.
(** A node never uses its own outputs. *)
Lemma no_self x k : In x (t_nodes c) -> ~ In (Out (t_id x) k) (t_args x).
Proof. intros I J. destruct (in_split _ _ I) as (a & b & E). eapply known_own; eauto. eapply va_order; eauto. Qed.
Lemma unpack_args x n : In x (t_nodes c) -> t_op x = UnpackTuple n -> exists w, t_args x = [w].
Proof. intros I E. pose proof (ty_nodes Ht x I) as T. unfold node_typed in T. rewrite E in T. destruct T as (w & _ & ? & _). eauto. Qed.

(** ** The unpack nodes of a tuple *)
Definition unpacks (w : source) (x : node) : bool := is_unpack_tuple (t_op x) && (if in_dec source_eq_dec w (t_args x) then true else false).
Lemma unpack_nodes_filter w : unpack_nodes c w = filter (unpacks w) (t_nodes c).
Proof.
  unfold unpack_nodes, links. rewrite flat_map_app.
  assert (E0 : forall n, flat_map (fun l => match l with Some x => if is_unpack_tuple (t_op x) then [x] else [] | None => [] end) (repeat (@None node) n) = []) by (induction n; simpl; auto).
  rewrite E0, app_nil_r. clear E0.
  assert (H : forall l, incl l (t_nodes c) -> flat_map (fun l => match l with Some x => if is_unpack_tuple (t_op x) then [x] else [] | None => [] end)
    (flat_map (fun x => repeat (Some x) (uses_of w (t_args x))) l) = filter (unpacks w) l).
  { induction l as [|x l IH]; simpl; intros I; auto. rewrite flat_map_app, IH by (intros y J; apply I; right; auto). unfold unpacks at 2.
    destruct (is_unpack_tuple (t_op x)) eqn:U; simpl.
    - destruct (t_op x) eqn:Ox; try discriminate. destruct (unpack_args x n (I x (or_introl eq_refl)) Ox) as (v & Ev). rewrite Ev. unfold uses_of. simpl.
      destruct (source_eq_dec v w) as [->|N]; simpl.
      + rewrite Ox. auto.
      + auto.
    - induction (uses_of w (t_args x)); simpl; auto. rewrite U. auto. }
  apply H. intros x I; auto.
Qed.
Lemma in_links w l : In l (links c w) <-> match l with Some x => In x (t_nodes c) /\ In w (t_args x) | None => In w (t_outs c) end.
Proof.
  unfold links. rewrite in_app_iff, in_flat_map. split.
  - intros [(x & I & J)|J]; pose proof (repeat_spec _ _ _ J) as ->.
    + split; auto. unfold uses_of in J. apply (count_occ_In source_eq_dec). destruct (count_occ source_eq_dec (t_args x) w); [destruct J|lia].
    + unfold uses_of in J. apply (count_occ_In source_eq_dec). destruct (count_occ source_eq_dec (t_outs c) w); [destruct J|lia].
  - destruct l as [x|].
    + intros [I J]. left. exists x. split; auto. apply (count_occ_In source_eq_dec) in J. unfold uses_of. destruct (count_occ source_eq_dec (t_args x) w); [lia|]. left; auto.
    + intros J. right. apply (count_occ_In source_eq_dec) in J. unfold uses_of. destruct (count_occ source_eq_dec (t_outs c) w); [lia|]. left; auto.
Qed.
Definition is_unpack_link (l : option node) : bool := match l with Some x => is_unpack_tuple (t_op x) | None => false end.
Lemma unpack_nodes_len w : length (unpack_nodes c w) = length (filter is_unpack_link (links c w)).
Proof. unfold unpack_nodes. induction (links c w) as [|[x|] l IH]; simpl; auto. rewrite app_length, IH. destruct (is_unpack_tuple (t_op x)); auto. Qed.
Lemma filter_split_len {A} (f : A -> bool) l : length l = length (filter f l) + length (filter (fun x => negb (f x)) l).
Proof. induction l as [|a l IH]; simpl; auto. destruct (f a); simpl; lia. Qed.

(** ** The rewrite *)
Section Rewrite.
Variables (x : node) (n : nat).
Hypothesis Hx : In x (t_nodes c).
Hypothesis Ho : t_op x = MakeTuple n.
Let w0 := Out (t_id x) 0.
Let us := unpack_nodes c w0.
Let others := length (links c w0) - length us.
Lemma pack_len : length (t_args x) = n.
Proof. pose proof (ty_nodes Ht x Hx) as T. unfold node_typed in T. rewrite Ho in T. apply T. Qed.
Lemma in_us y : In y us -> In y (t_nodes c) /\ t_op y = UnpackTuple n /\ t_args y = [w0].
Proof.
  unfold us. rewrite unpack_nodes_filter. intros I. apply filter_In in I. destruct I as [I U]. split; auto. unfold unpacks in U. apply andb_prop in U. destruct U as [U A].
  destruct (t_op y) as [|m|] eqn:Oy; try discriminate. pose proof (ty_nodes Ht y I) as T. unfold node_typed in T. rewrite Oy in T. destruct T as (w & ts & E & T & L & _).
  rewrite E in A. destruct (in_dec source_eq_dec w0 [w]) as [[->|[]]|]; [|discriminate]. split; auto.
  pose proof (ty_nodes Ht x Hx) as Tx. unfold node_typed in Tx. rewrite Ho in Tx. destruct Tx as [Lx Tx]. fold w0 in Tx. rewrite T in Tx. injection Tx as ->. rewrite map_length in L. congruence.
Qed.
Lemma us_in y m : In y (t_nodes c) -> t_op y = UnpackTuple m -> In w0 (t_args y) -> In y us.
Proof. intros I E A. unfold us. rewrite unpack_nodes_filter. apply filter_In. split; auto. unfold unpacks. rewrite E. simpl. destruct (in_dec source_eq_dec w0 (t_args y)); auto. Qed.
Lemma us_ids : NoDup (map t_id us).
Proof.
  unfold us. rewrite unpack_nodes_filter. pose proof (va_ids Hv) as D. clear - D. induction (t_nodes c) as [|y l IH]; simpl; [constructor|]. simpl in D. inversion D as [|? ? N D']; subst.
  destruct (unpacks w0 y); simpl; [|apply IH; auto]. constructor; [|apply IH; auto]. intros I. apply N. apply in_map_iff in I. destruct I as (z & E & I). apply filter_In in I. rewrite <- E. apply in_map, I.
Qed.
Lemma x_not_us : ~ In (t_id x) (map t_id us).
Proof. intros I. apply in_map_iff in I. destruct I as (y & E & I). destruct (in_us y I) as (J & U & _). rewrite (ids_inj _ y x (va_ids Hv) J Hx E) in U. congruence. Qed.
Lemma removed_ids y : In y (t_nodes c) -> (In (t_id y) (map t_id (us ++ [x])) <-> In y us \/ y = x).
Proof.
  intros I. rewrite map_app, in_app_iff. simpl. split.
  - intros [J|[J|[]]].
    + apply in_map_iff in J. destruct J as (z & E & J). left. rewrite (ids_inj _ y z (va_ids Hv)); auto. apply in_us; auto.
    + right. symmetry. apply (ids_inj _ _ _ (va_ids Hv)); auto.
  - intros [J| ->]; [left; apply in_map; auto|auto].
Qed.
Definition cand : list source := flat_map (fun y => map (Out (t_id y)) (seq 0 n)) us.
Lemma candidates : flat_map (fun y => map (Out (t_id y)) (seq 0 (num_outputs (t_op y)))) (us ++ [x]) = cand ++ [w0].
Proof.
  rewrite flat_map_app. simpl. rewrite Ho. simpl. f_equal. unfold cand. assert (H : forall y, In y us -> t_op y = UnpackTuple n) by (intros y I; apply in_us; auto).
  revert H. generalize us. clear. intros l H. induction l as [|y l IH]; simpl; auto. rewrite (H y) by (left; auto). simpl. f_equal. apply IH. intros z I. apply H. right; auto.
Qed.
Lemma cand_len : length cand = n * length us.
Proof. apply flat_map_len. intros y _. rewrite map_length, seq_length. auto. Qed.
Lemma others_outside : outside c (map t_id (us ++ [x])) w0 = Nat.ltb 0 others.
Proof.
  unfold others. unfold us at 2. rewrite unpack_nodes_len. rewrite (filter_split_len is_unpack_link (links c w0)) at 1.
  replace (length (filter is_unpack_link (links c w0)) + length (filter (fun x => negb (is_unpack_link x)) (links c w0)) - length (filter is_unpack_link (links c w0)))
    with (length (filter (fun x => negb (is_unpack_link x)) (links c w0))) by lia.
  unfold outside. assert (H : forall l, In l (links c w0) -> match l with Some y => negb (memb (t_id y) (map t_id (us ++ [x]))) | None => true end = negb (is_unpack_link l)).
  { intros [y|] I; simpl; auto. apply in_links in I. destruct I as [I A]. f_equal. destruct (is_unpack_tuple (t_op y)) eqn:U.
    - apply memb_in, removed_ids; auto. left. destruct (t_op y) eqn:E; try discriminate. eapply us_in; eauto.
    - apply memb_not. rewrite removed_ids by auto. intros [J| ->]; [apply in_us in J; destruct J as (_ & J & _); rewrite J in U; discriminate|]. eapply no_self; eauto. }
  induction (links c w0) as [|l ls IH]; simpl; auto. rewrite H by (left; auto). destruct (negb (is_unpack_link l)); simpl; auto. apply IH. intros l' I. apply H. right; auto.
Qed.
(** Whether a rewrite is built, exactly. *)
Definition unused : Prop := exists y j, In y us /\ j < n /\ ~ In (Out (t_id y) j) (all_uses c).
Lemma used_outside y j : In y us -> j < n -> outside c (map t_id (us ++ [x])) (Out (t_id y) j) = true <-> In (Out (t_id y) j) (all_uses c).
Proof.
  intros I L. unfold outside. rewrite existsb_exists. unfold all_uses. rewrite in_app_iff, in_flat_map. split.
  - intros ([z|] & J & _); apply in_links in J; [left; exists z; auto|auto].
  - intros [(z & J & A)|A].
    + exists (Some z). split; [apply in_links; auto|]. apply negb_true_iff, memb_not. rewrite removed_ids by auto. intros [K| ->].
      * destruct (in_us z K) as (_ & _ & E). rewrite E in A. destruct A as [A|[]]. injection A as E' _. apply x_not_us. rewrite E'. apply in_map; auto.
      * destruct (in_us y I) as (Iy & _ & Ey). destruct (in_split _ _ Iy) as (a & b & E). assert (K : known (t_inputs c) a w0) by (eapply va_order; eauto; rewrite Ey; left; auto).
        destruct K as [(? & ? & _)|(z & k & Iz & [= Ez _] & _)]; [discriminate|]. assert (z = x) by (apply (ids_inj _ _ _ (va_ids Hv)); auto; rewrite E; apply in_or_app; auto). subst z.
        destruct (in_split _ _ Iz) as (a1 & a2 & E2). subst a. rewrite <- app_assoc in E. simpl in E.
        assert (K : known (t_inputs c) a1 (Out (t_id y) j)) by (eapply va_order; eauto). apply (known_own (a1 ++ x :: a2) y b j); [rewrite <- app_assoc; auto|]. apply known_app; auto.
    + exists None. split; auto. apply in_links; auto.
Qed.
Lemma outs_len : length (boundary_outputs c (us ++ [x])) = length (filter (outside c (map t_id (us ++ [x]))) cand) + (if Nat.ltb 0 others then 1 else 0).
Proof. unfold boundary_outputs. rewrite candidates, filter_app_len. simpl. rewrite others_outside. destruct (Nat.ltb 0 others); auto. Qed.
Lemma new_len : length (cycle_take n (n * length us) ++ repeat RTuple others) = n * length us + others.
Proof. rewrite app_length, repeat_length. f_equal. unfold cycle_take. destruct n; [simpl; lia|]. rewrite map_length, seq_length. auto. Qed.
Lemma all_outside : (forall y j, In y us -> j < n -> In (Out (t_id y) j) (all_uses c)) <-> length (filter (outside c (map t_id (us ++ [x]))) cand) = length cand.
Proof.
  split.
  - intros A. f_equal. assert (H : forall w, In w cand -> outside c (map t_id (us ++ [x])) w = true).
    { intros w I. unfold cand in I. apply in_flat_map in I. destruct I as (y & I & J). apply in_map_iff in J. destruct J as (j & <- & J). apply in_seq in J. apply used_outside; auto; [lia|]. apply A; auto; lia. }
    clear A. induction cand as [|w l IH]; simpl; auto. rewrite H by (left; auto). f_equal. apply IH. intros; apply H; right; auto.
  - intros E y j I J. apply filter_full in E. assert (K : In (Out (t_id y) j) cand) by (unfold cand; apply in_flat_map; exists y; split; auto; apply in_map, in_seq; lia).
    rewrite <- E in K. apply filter_In in K. apply (used_outside y j); auto. apply K.
Qed.
Lemma rewrite_built : make_rewrite c x = match us with [] => NoRewrite | _ => remove_pack_unpack c x n us others end.
Proof. unfold make_rewrite. rewrite Ho. auto. Qed.
Lemma match_ne {A B} (l : list A) (a b : B) : l <> [] -> match l with [] => a | _ => b end = b.
Proof. destruct l; congruence. Qed.
Lemma rewrite_cases : us <> [] ->
  (make_rewrite c x = PanicRewrite <-> 2 <= others \/ unused) /\
  forall r, make_rewrite c x = Rewrite r -> r = {| rw_pack := x; rw_removed := map t_id (us ++ [x]); rw_outs := cand ++ (if Nat.ltb 0 others then [w0] else []);
    rw_new := cycle_take n (n * length us) ++ repeat RTuple others; rw_keep := Nat.ltb 0 others |} /\ others <= 1.
Proof.
  intros N. rewrite rewrite_built, match_ne by auto. unfold remove_pack_unpack. rewrite outs_len, new_len.
  pose proof (filter_len (outside c (map t_id (us ++ [x]))) cand) as L. rewrite cand_len in L. split.
  - split.
    + destruct (Nat.eqb_spec (length (filter (outside c (map t_id (us ++ [x]))) cand) + (if Nat.ltb 0 others then 1 else 0)) (n * length us + others)) as [E|E]; [discriminate|]. intros _.
      destruct (le_lt_dec 2 others) as [?|Lo]; auto. right. destruct (Exists_dec (fun y => exists j, j < n /\ ~ In (Out (t_id y) j) (all_uses c)) us) as [Ex|Ex].
      { intros y. assert (D : forall m, {exists j, j < m /\ ~ In (Out (t_id y) j) (all_uses c)} + {forall j, j < m -> In (Out (t_id y) j) (all_uses c)}).
        { induction m as [|m [IH|IH]]; [right; intros; lia|left; destruct IH as (j & ? & ?); exists j; split; auto; lia|].
          destruct (in_dec source_eq_dec (Out (t_id y) m) (all_uses c)) as [I|I]; [right|left; exists m; split; auto; lia]. intros j J. destruct (Nat.eq_dec j m) as [->|]; auto. apply IH. lia. }
        destruct (D n) as [D'|D']; [left; auto|right; intros (j & J & K); apply K, D'; auto]. }
      * apply Exists_exists in Ex. destruct Ex as (y & I & j & J & K). exists y, j. auto.
      * exfalso. assert (A : length (filter (outside c (map t_id (us ++ [x]))) cand) = length cand).
        { apply all_outside. intros y j I J. destruct (in_dec source_eq_dec (Out (t_id y) j) (all_uses c)); auto. exfalso. apply Ex, Exists_exists. exists y. split; auto. exists j. auto. }
        rewrite A, cand_len in E. destruct (Nat.ltb_spec 0 others); lia.
    + intros H. destruct (Nat.eqb_spec (length (filter (outside c (map t_id (us ++ [x]))) cand) + (if Nat.ltb 0 others then 1 else 0)) (n * length us + others)) as [E|E]; auto. exfalso.
      assert (A : length (filter (outside c (map t_id (us ++ [x]))) cand) = length cand /\ others <= 1) by (rewrite cand_len; destruct (Nat.ltb_spec 0 others); lia).
      destruct A as [A Lo]. destruct H as [?|(y & j & I & J & K)]; [lia|]. apply K. apply (proj2 all_outside A); auto.
  - intros r. destruct (Nat.eqb_spec (length (filter (outside c (map t_id (us ++ [x]))) cand) + (if Nat.ltb 0 others then 1 else 0)) (n * length us + others)) as [E|E]; [|discriminate].
    intros [= <-]. assert (A : length (filter (outside c (map t_id (us ++ [x]))) cand) = length cand /\ others <= 1) by (rewrite cand_len; destruct (Nat.ltb_spec 0 others); lia).
    destruct A as [A Lo]. split; auto. f_equal. unfold boundary_outputs. rewrite candidates, filter_app, (filter_full _ _ A). simpl. rewrite others_outside. auto.
Qed.
End Rewrite.
End Proofs.
