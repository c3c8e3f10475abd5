(** Proofs about the pipeline. *)
From Coq Require Import Ascii String List Arith Bool ZArith Lia FinFun.
From Verif Require Import PipeModel PipeSpec.
Import ListNotations.

(** ** Orders *)
Lemma mem_spec : forall n l, mem n l = true <-> In n l.
Proof.
  intros n l. unfold mem. rewrite existsb_exists. split.
  - intros (x & h & e). apply Nat.eqb_eq in e. subst. exact h.
  - intro h. exists n. split; [ exact h | apply Nat.eqb_refl ].
Qed.

Lemma ready_spec : forall g todo n,
  ready g todo n = true <-> (forall p, In p (r_deps g n) -> ~ In p todo).
Proof.
  intros g todo n. unfold ready. rewrite forallb_forall. split.
  - intros h p hp hi. specialize (h p hp). apply mem_spec in hi. rewrite hi in h. discriminate.
  - intros h p hp. destruct (mem p todo) eqn:e; auto. apply mem_spec in e.
    exfalso. exact (h p hp e).
Qed.

Lemma least_spec : forall g l n, least g l = Some n ->
  In n l /\ forall m, In m l -> (rank (r_op g n) <= rank (r_op g m))%Z.
Proof.
  induction l as [ | x l IH ]; intros n h; simpl in h; [ discriminate | ].
  destruct (least g l) as [ m | ] eqn:e.
  - destruct (IH m eq_refl) as (h1 & h2).
    destruct (Z.leb_spec (rank (r_op g x)) (rank (r_op g m))) as [ c | c ]; inversion h; subst.
    + split; [ left; reflexivity | ]. intros y [ -> | hy ]; [ lia | ]. specialize (h2 y hy). lia.
    + split; [ right; exact h1 | ]. intros y [ -> | hy ]; [ lia | auto ].
  - destruct l as [ | y l ].
    + inversion h; subst. split; [ left; reflexivity | ]. intros m [ -> | [] ]. lia.
    + simpl in e. destruct (least g l) as [ m | ]; [ | discriminate ].
      destruct (_ <=? _)%Z; discriminate.
Qed.

Lemma least_none : forall g l, least g l = None -> l = [].
Proof.
  intros g l h. destruct l as [ | x l ]; auto. simpl in h.
  destruct (least g l); [ destruct (_ <=? _)%Z; discriminate | discriminate ].
Qed.

Lemma remove_spec : forall n l m, In m (remove_node n l) <-> In m l /\ m <> n.
Proof.
  intros n l m. unfold remove_node. rewrite filter_In. split; intros (h1 & h2); split; auto.
  - apply negb_true_iff, Nat.eqb_neq in h2. exact h2.
  - apply negb_true_iff, Nat.eqb_neq. exact h2.
Qed.

Lemma remove_length : forall n l, In n l -> length (remove_node n l) < length l.
Proof.
  induction l as [ | x l IH ]; intro h; [ contradiction | ].
  assert (hle : forall q, length (remove_node n q) <= length q).
  { intro q. unfold remove_node. induction q as [ | y q IHq ]; simpl; auto.
    destruct (negb _); simpl; lia. }
  unfold remove_node in *. simpl.
  destruct (Nat.eqb_spec x n) as [ e | e ]; simpl.
  - specialize (hle l). lia.
  - destruct h as [ h | h ]; [ congruence | ]. specialize (IH h). lia.
Qed.

(** What the algorithm keeps: the order of what is left. *)
Lemma force_order_inv : forall g fuel todo l,
  force_order fuel g todo = Some l ->
  NoDup l /\ (forall n, In n l <-> In n todo)
  /\ (forall pre n post, l = pre ++ n :: post ->
      (forall p, In p (r_deps g n) -> In p todo -> In p pre)
      /\ (forall m, In m post ->
          (forall p, In p (r_deps g m) -> In p todo -> In p pre) ->
          (rank (r_op g n) <= rank (r_op g m))%Z)).
Proof.
  intros g fuel. induction fuel as [ | fuel IH ]; intros todo l h.
  - destruct todo; simpl in h; inversion h; subst. split; [ constructor | ]. split; [ tauto | ].
    intros pre n post e. destruct pre; discriminate.
  - destruct todo as [ | t0 todo0 ].
    + simpl in h. inversion h; subst. split; [ constructor | ]. split; [ tauto | ].
      intros pre n post e. destruct pre; discriminate.
    + remember (t0 :: todo0) as todo eqn:et.
      assert (h' : match least g (filter (ready g todo) todo) with
                   | None => None
                   | Some n => match force_order fuel g (remove_node n todo) with
                               | Some l => Some (n :: l)
                               | None => None
                               end
                   end = Some l) by (rewrite et in *; exact h).
      clear h et t0 todo0.
      destruct (least g (filter (ready g todo) todo)) as [ x | ] eqn:ex; [ | discriminate ].
      destruct (force_order fuel g (remove_node x todo)) as [ l0 | ] eqn:el; [ | discriminate ].
      inversion h'; subst; clear h'.
      destruct (least_spec _ _ _ ex) as (hx & hmin). apply filter_In in hx. destruct hx as (hx & rx).
      destruct (IH _ _ el) as (i1 & i2 & i3).
      assert (hin : forall n, In n (x :: l0) <-> In n todo).
      { intro n. simpl. rewrite i2, remove_spec. destruct (Nat.eq_dec n x) as [ -> | ne ]; [ tauto | ].
        split; [ intros [ e | (q & _) ]; [ congruence | exact q ] | intro q; right; split; auto ]. }
      split; [ constructor; auto; rewrite i2, remove_spec; tauto | ].
      split; [ exact hin | ].
      intros pre n post e. destruct pre as [ | y pre ]; simpl in e; inversion e; subst.
      * split.
        { intros p hp hp'. exfalso. rewrite ready_spec in rx. exact (rx p hp hp'). }
        { intros m hm hfree. apply hmin. apply filter_In. split.
          - apply hin. right. exact hm.
          - apply ready_spec. intros p hp hp'. exact (hfree p hp hp'). }
      * destruct (i3 pre n post eq_refl) as (j1 & j2). split.
        { intros p hp hp'. destruct (Nat.eq_dec p y) as [ -> | ne ]; [ left; reflexivity | ].
          right. apply (j1 p hp). apply remove_spec. auto. }
        { intros m hm hfree. apply (j2 m hm). intros p hp hp'. apply remove_spec in hp'.
          destruct hp' as (hp1 & hp2). destruct (hfree p hp hp1) as [ q | q ]; [ congruence | exact q ]. }
Qed.

(** If there is an order, a node is always ready. *)
Lemma some_ready : forall g l, linear g l -> forall todo,
  todo <> [] -> (forall n, In n todo -> In n (r_nodes g)) ->
  exists n, In n todo /\ ready g todo n = true.
Proof.
  intros g l (_ & hin & hr) todo hne hsub.
  assert (hfirst : forall q, (forall n, In n todo -> In n q) ->
            exists pre n post, q = pre ++ n :: post /\ In n todo
                               /\ forall p, In p pre -> ~ In p todo).
  { induction q as [ | x q IH ]; intro h.
    - destruct todo as [ | t todo ]; [ congruence | ]. destruct (h t (or_introl eq_refl)).
    - destruct (in_dec Nat.eq_dec x todo) as [ i | i ].
      + exists [], x, q. split; [ reflexivity | ]. split; [ exact i | ]. intros p [].
      + destruct IH as (pre & n & post & e & h1 & h2).
        * intros n hn. destruct (h n hn) as [ -> | h' ]; [ contradiction | exact h' ].
        * exists (x :: pre), n, post. subst. split; [ reflexivity | ]. split; [ exact h1 | ].
          intros p [ -> | hp ]; auto. }
  destruct (hfirst l) as (pre & n & post & e & h1 & h2).
  { intros n hn. apply hin. auto. }
  exists n. split; [ exact h1 | ]. apply ready_spec. intros p hp hp'.
  apply (h2 p); [ | exact hp' ]. apply (hr pre n post e p hp). auto.
Qed.

Lemma force_order_total : forall g l, linear g l -> forall fuel todo,
  length todo <= fuel -> (forall n, In n todo -> In n (r_nodes g)) ->
  exists o, force_order fuel g todo = Some o.
Proof.
  intros g l hl. induction fuel as [ | fuel IH ]; intros todo hf hs.
  - destruct todo; simpl in *; [ eauto | lia ].
  - destruct todo as [ | t0 todo0 ]; [ simpl; eauto | ].
    destruct (some_ready g l hl (t0 :: todo0)) as (n & hn & hr); [ discriminate | exact hs | ].
    remember (t0 :: todo0) as todo eqn:et.
    assert (step : force_order (S fuel) g todo
                   = match least g (filter (ready g todo) todo) with
                     | None => None
                     | Some n => match force_order fuel g (remove_node n todo) with
                                 | Some l => Some (n :: l)
                                 | None => None
                                 end
                     end) by (rewrite et; reflexivity).
    rewrite step. destruct (least g (filter (ready g todo) todo)) as [ x | ] eqn:ex.
    + destruct (least_spec _ _ _ ex) as (hx & _). apply filter_In in hx.
      destruct (IH (remove_node x todo)) as (o & ho).
      * pose proof (remove_length x todo (proj1 hx)). lia.
      * intros m hm. apply remove_spec in hm. apply hs. tauto.
      * rewrite ho. eauto.
    + apply least_none in ex.
      assert (hb : In n (filter (ready g todo) todo)) by (apply filter_In; auto).
      rewrite ex in hb. contradiction.
Qed.

Lemma force_order_greedy : forall g, acyclic g ->
  exists l, force_order (length (r_nodes g)) g (r_nodes g) = Some l /\ greedy g l.
Proof.
  intros g (l0 & hl0).
  destruct (force_order_total g l0 hl0 (length (r_nodes g)) (r_nodes g)) as (l & e); auto.
  exists l. split; [ exact e | ]. destruct (force_order_inv _ _ _ _ e) as (h1 & h2 & h3).
  split; [ split; [ exact h1 | split; [ exact h2 | ] ] | ].
  - intros pre n post el p hp hp'. exact (proj1 (h3 pre n post el) p hp hp').
  - intros pre n post el m hm hf. apply (proj2 (h3 pre n post el) m hm). exact hf.
Qed.

(** A node that is put off although its rank is lower depends on a node that could be taken
    instead, of the same or a higher rank. *)
Lemma put_off : forall g l, greedy g l -> forall pre x post, l = pre ++ x :: post ->
  forall y, In y post -> (rank (r_op g y) < rank (r_op g x))%Z ->
  exists z, depends g y z /\ In z (x :: post) /\ free_in g pre z
            /\ (rank (r_op g x) <= rank (r_op g z))%Z.
Proof.
  intros g l ((hnd & hin & hres) & hg) pre x post e.
  (* for the nodes of a beginning of the rest, by the length of it *)
  assert (base : forall a y b, x :: post = a ++ y :: b ->
            free_in g pre y \/ exists z, depends g y z /\ In z (x :: post) /\ free_in g pre z).
  { intro a. induction a as [ a IH ] using (well_founded_induction (Wf_nat.well_founded_ltof _ (@length nat))).
    intros y b ey.
    assert (dec : (exists p, In p (r_deps g y) /\ In p (r_nodes g) /\ ~ In p pre)
                  \/ free_in g pre y).
    { unfold free_in. clear. induction (r_deps g y) as [ | p d IHd ].
      - right. intros p [].
      - destruct (in_dec Nat.eq_dec p (r_nodes g)) as [ i | i ];
          [ destruct (in_dec Nat.eq_dec p pre) as [ j | j ] | ].
        + destruct IHd as [ (q & h1 & h2) | h ]; [ left; exists q; split; [ right; exact h1 | exact h2 ] | ].
          right. intros q [ <- | hq ]; auto.
        + left. exists p. split; [ left; reflexivity | auto ].
        + destruct IHd as [ (q & h1 & h2) | h ]; [ left; exists q; split; [ right; exact h1 | exact h2 ] | ].
          right. intros q [ <- | hq ] hn; [ contradiction | auto ]. }
    destruct dec as [ (p & hp & hpn & hpp) | hf ]; [ right | left; exact hf ].
    assert (el : l = (pre ++ a) ++ y :: b) by (rewrite e, ey, app_assoc; reflexivity).
    pose proof (hres _ _ _ el p hp hpn) as hpa. apply in_app_or in hpa.
    destruct hpa as [ hpa | hpa ]; [ contradiction | ].
    destruct (in_split _ _ hpa) as (a1 & a2 & ea). subst a.
    destruct (IH a1) with (y := p) (b := a2 ++ y :: b) as [ hf | (z & z1 & z2 & z3) ].
    + unfold Wf_nat.ltof. rewrite app_length. simpl. lia.
    + rewrite ey, <- app_assoc. reflexivity.
    + exists p. split; [ apply dep_one; assumption | ]. split; [ | exact hf ].
      rewrite ey. apply in_or_app. left. apply in_or_app. right. left. reflexivity.
    + exists z. split; [ apply dep_more with p; assumption | ]. split; assumption. }
  intros y hy hlt.
  destruct (in_split _ _ hy) as (b1 & b2 & eb).
  destruct (base (x :: b1) y b2) as [ hf | (z & z1 & z2 & z3) ].
  { rewrite eb. reflexivity. }
  - exfalso. pose proof (hg _ _ _ e y hy hf). lia.
  - exists z. split; [ exact z1 | split; [ exact z2 | split; [ exact z3 | ] ] ].
    destruct z2 as [ <- | z2 ]; [ lia | ]. exact (hg _ _ _ e z z2 z3).
Qed.

(** The ranks. *)
Lemma rank_cases : forall o,
  (free o /\ rank o = (-3)%Z) \/ (quantum o /\ ~ free o /\ rank o = (-2)%Z)
  \/ (alloc o /\ rank o = (-1)%Z) \/ (classical o /\ rank o = 0%Z) \/ (o = FutRead /\ rank o = 1%Z).
Proof.
  intro o. unfold free, quantum, alloc, classical.
  destruct o; unfold rank; simpl;
    [ do 2 right; left | do 2 right; left | left | right; left | do 2 right; left | left
    | right; left | do 4 right | do 3 right; left | do 3 right; left ];
    repeat split; try tauto; intros [ h | h ]; discriminate.
Qed.

(** ** Names *)
Lemma unary_no_dot : forall n a b, unary n = (a ++ "." ++ b)%string -> False.
Proof.
  induction n as [ | n IH ]; intros a b h.
  - destruct a; discriminate.
  - destruct a as [ | c a ]; simpl in h; inversion h. exact (IH _ _ H1).
Qed.

Lemma unary_inj : forall n m, unary n = unary m -> n = m.
Proof.
  induction n as [ | n IH ]; intros [ | m ] h; simpl in h; try discriminate; auto.
  inversion h. f_equal. auto.
Qed.

Lemma dotted_inj : forall f g n m, (f ++ "." ++ unary n)%string = (g ++ "." ++ unary m)%string ->
  f = g /\ n = m.
Proof.
  induction f as [ | c f IH ]; intros g n m h; destruct g as [ | d g ].
  - simpl in h. inversion h as [ e ]. split; auto. apply unary_inj. exact e.
  - exfalso. simpl in h. inversion h as [ [ e1 e2 ] ]. exact (unary_no_dot _ _ _ e2).
  - exfalso. simpl in h. inversion h as [ [ e1 e2 ] ]. symmetry in e2. exact (unary_no_dot _ _ _ e2).
  - simpl in h. inversion h as [ [ e1 e2 ] ]. destruct (IH _ _ _ e2) as (-> & ->). auto.
Qed.

Lemma name_inj : forall f g n m, name_func f n = name_func g m -> f = g /\ n = m.
Proof.
  intros f g n m h. unfold name_func in h. simpl in h. inversion h as [ e ].
  apply dotted_inj. exact e.
Qed.

(** ** Entry points *)
Lemma lookup_emit : forall h n f i, lookup n h = Some (FuncDefn f i) ->
  wrap_main (emit_module h) (name_func f n) = Some [Setup; CallFn 0 i n; Teardown].
Proof.
  intros h n f i. unfold lookup, wrap_main, emit_module.
  induction (h_children h) as [ | [ m c ] l IH ]; simpl; [ discriminate | ].
  destruct (Nat.eqb_spec m n) as [ -> | ne ].
  - intro e. inversion e; subst. simpl. rewrite String.eqb_refl. reflexivity.
  - intro e. specialize (IH e). destruct c as [ g j | g | ]; cbn [snd fst flat_map app find]; try exact IH.
    destruct (String.eqb_spec (name_func g m) (name_func f n)) as [ q | q ]; [ | exact IH ].
    apply name_inj in q. destruct q. congruence.
Qed.

Lemma run_all_keeps : forall n f i ps, (forall p, In p ps -> keeps n f i p) ->
  forall h, lookup n h = Some (FuncDefn f i) ->
  exists h', run_all ps h = (h', true) /\ lookup n h' = Some (FuncDefn f i).
Proof.
  induction ps as [ | p ps IH ]; intros hk h hl; simpl; [ eauto | ].
  destruct (hk p (or_introl eq_refl) h hl) as (h1 & e1 & e2). rewrite e1.
  apply IH; [ intros q hq; apply hk; right; exact hq | exact e2 ].
Qed.

Lemma not_main : forall l : list (nat * child),
  (forall m c, In (m, c) l -> forall j, c <> FuncDefn "main" j) -> filter is_main l = [].
Proof.
  induction l as [ | [ m c ] l IH ]; intro h; simpl; auto.
  assert (e : is_main (m, c) = false).
  { unfold is_main. simpl. destruct c as [ f j | | ]; auto.
    destruct (String.eqb_spec f "main") as [ -> | ]; auto.
    exfalso. exact (h m _ (or_introl eq_refl) j eq_refl). }
  rewrite e. apply IH. intros m' c' hi. apply (h m' c'). right. exact hi.
Qed.

Lemma find_filter : forall (A : Type) (f : A -> bool) l c t,
  filter f l = c :: t -> find f l = Some c.
Proof.
  induction l as [ | x l IH ]; intros c t h; simpl in *; [ discriminate | ].
  destruct (f x); [ inversion h; reflexivity | eauto ].
Qed.

Lemma filter_one_split : forall (A : Type) (f : A -> bool) l c, filter f l = [c] ->
  exists a b, l = a ++ c :: b /\ f c = true /\ filter f a = [] /\ filter f b = [].
Proof.
  induction l as [ | x l IH ]; intros c h; simpl in h; [ discriminate | ].
  destruct (f x) eqn:e.
  - inversion h; subst. exists [], l. auto.
  - destruct (IH c h) as (a & b & -> & h1 & h2 & h3). exists (x :: a), b. simpl. rewrite e. auto.
Qed.

Lemma filter_nil_main : forall l : list (nat * child), filter is_main l = [] ->
  forall m c, In (m, c) l -> forall j, c <> FuncDefn "main" j.
Proof.
  intros l h m c hi j ->.
  assert (b : In (m, FuncDefn "main" j) (filter is_main l)) by (apply filter_In; auto).
  rewrite h in b. contradiction.
Qed.

(** ** The region of angles *)
Lemma angles_linear : forall n, linear (angles n) (seq 0 (3 * n + 1)).
Proof.
  intro n. split; [ apply seq_NoDup | ]. split; [ intro x; simpl; tauto | ].
  intros pre x post e p hp hp'.
  assert (hx : x = length pre).
  { assert (h : nth_error (seq 0 (3 * n + 1)) (length pre) = Some x).
    { rewrite e, nth_error_app2, Nat.sub_diag by lia. reflexivity. }
    assert (hl : length pre < 3 * n + 1).
    { rewrite <- (seq_length (3 * n + 1) 0), e, app_length. simpl. lia. }
    rewrite nth_error_nth' with (d := 0) in h by (rewrite seq_length; exact hl).
    rewrite seq_nth in h by exact hl. inversion h. reflexivity. }
  assert (hpre : pre = seq 0 (length pre)).
  { assert (hl : 3 * n + 1 = length pre + (3 * n + 1 - length pre)).
    { assert (length pre <= 3 * n + 1); [ | lia ].
      rewrite <- (seq_length (3 * n + 1) 0), e, app_length. lia. }
    rewrite hl, seq_app in e. apply (f_equal (firstn (length pre))) in e.
    rewrite !firstn_app, Nat.sub_diag, seq_length, Nat.sub_diag in e. simpl firstn in e.
    rewrite !app_nil_r, firstn_all in e.
    rewrite <- (seq_length (length pre) 0) in e at 1. rewrite firstn_all in e. auto. }
  rewrite hpre. apply in_seq. rewrite <- hx.
  cbn [angles r_deps] in hp. destruct x as [ | y ]; [ contradiction | ].
  destruct (y mod 3) as [ | [ | k ] ]; simpl in hp; lia.
Qed.

Lemma live_app : forall g a b, live g (a ++ b) = (live g a + live g b)%Z.
Proof. induction a as [ | x a IH ]; intro b; simpl; auto. rewrite IH. lia. Qed.

Lemma angles_live : forall n k,
  live (angles n) (seq 0 (S k)) = match k mod 3 with 0 => 0%Z | _ => 1%Z end.
Proof.
  intros n k. induction k as [ | k IH ]; [ reflexivity | ].
  rewrite seq_S. rewrite live_app, IH. cbn [plus live angles r_op].
  assert (hk : k mod 3 = 0 \/ k mod 3 = 1 \/ k mod 3 = 2)
    by (pose proof (Nat.mod_upper_bound k 3); lia).
  assert (hs : S k mod 3 = (S (k mod 3)) mod 3).
  { replace (S k) with (1 + k) by lia. replace (S (k mod 3)) with (1 + k mod 3) by lia.
    rewrite Nat.add_mod_idemp_r by lia. reflexivity. }
  rewrite hs. destruct hk as [ -> | [ -> | -> ] ]; reflexivity.
Qed.

Lemma angles_at_most : forall n, at_most (angles n) (seq 0 (3 * n + 1)) 1.
Proof.
  intros n pre post e.
  assert (hpre : pre = seq 0 (length pre)).
  { assert (hl : 3 * n + 1 = length pre + (3 * n + 1 - length pre)).
    { assert (length pre <= 3 * n + 1); [ | lia ].
      rewrite <- (seq_length (3 * n + 1) 0), e, app_length. lia. }
    rewrite hl, seq_app in e. apply (f_equal (firstn (length pre))) in e.
    rewrite !firstn_app, Nat.sub_diag, seq_length, Nat.sub_diag in e. simpl firstn in e.
    rewrite !app_nil_r, firstn_all in e.
    rewrite <- (seq_length (length pre) 0) in e at 1. rewrite firstn_all in e. auto. }
  rewrite hpre. destruct (length pre) as [ | k ]; [ simpl; lia | ].
  rewrite angles_live. destruct (k mod 3); lia.
Qed.

(** Every allocation comes before the constant, every free after it. *)
Lemma live_allocs : forall g l, (forall x, In x l -> ~ free (r_op g x)) ->
  forall as_, NoDup as_ -> (forall a, In a as_ -> In a l /\ alloc (r_op g a)) -> NoDup l ->
  (Z.of_nat (length as_) <= live g l)%Z.
Proof.
  intros g l. induction l as [ | x l IH ]; intros hf as_ hn ha hnl.
  - destruct as_ as [ | a as_ ]; [ simpl; lia | ].
    destruct (ha a (or_introl eq_refl)) as ([] & _).
  - inversion hnl as [ | y q hx hnl' ]; subst.
    assert (hf' : forall y, In y l -> ~ free (r_op g y)) by (intros y hy; apply hf; right; exact hy).
    assert (hx0 : (0 <= match r_op g x with
                        | TkQAlloc | TkTryQAlloc | QsTryQAlloc => 1
                        | TkQFree | QsQFree => -1
                        | _ => 0
                        end)%Z).
    { pose proof (hf x (or_introl eq_refl)) as q. unfold free in q.
      destruct (r_op g x); try lia; exfalso; apply q; auto. }
    cbn [live]. destruct (in_dec Nat.eq_dec x as_) as [ i | i ].
    + destruct (in_split _ _ i) as (a1 & a2 & ->).
      assert (hle : (Z.of_nat (length (a1 ++ a2)) <= live g l)%Z).
      { apply IH; auto.
        - apply NoDup_remove_1 in hn. exact hn.
        - intros a hin. apply NoDup_remove_2 in hn.
          destruct (ha a) as (h1 & h2).
          { apply in_app_or in hin. apply in_or_app. destruct hin; [ left | right; right ]; assumption. }
          split; [ | exact h2 ]. destruct h1 as [ -> | h1 ]; [ contradiction | exact h1 ]. }
      destruct (ha x i) as (_ & hx1).
      rewrite app_length in *. simpl length.
      destruct hx1 as [ -> | [ -> | -> ] ]; lia.
    + assert (hle : (Z.of_nat (length as_) <= live g l)%Z).
      { apply IH; auto. intros a hin. destruct (ha a hin) as ([ -> | h1 ] & h2); [ contradiction | auto ]. }
      lia.
Qed.

Lemma angles_uses : forall n l, greedy (angles n) l -> uses (angles n) l (Z.of_nat n).
Proof.
  intros n l hg. pose proof hg as ((hnd & hin & hres) & _).
  assert (h0 : In 0 l) by (apply hin; simpl; apply in_seq; lia).
  destruct (in_split _ _ h0) as (pre & post & e).
  exists pre, (0 :: post). split; [ exact e | ].
  (* no frees before the constant *)
  assert (hno : forall x, In x pre -> ~ free (r_op (angles n) x)).
  { intros x hx hf. destruct (in_split _ _ hx) as (a & b & ea).
    assert (hxn : In x (r_nodes (angles n))).
    { apply hin. rewrite e. apply in_or_app. left. exact hx. }
    assert (hchain : exists y, In y (r_deps (angles n) x) /\ In y (r_nodes (angles n))
                               /\ In 0 (r_deps (angles n) y)).
    { destruct x as [ | y ]; [ destruct hf; discriminate | ]. exists y.
      cbn [angles r_op r_deps r_nodes] in hf, hxn |- *. apply in_seq in hxn.
      destruct (y mod 3) as [ | [ | k ] ] eqn:em; try (destruct hf; discriminate).
      split; [ left; reflexivity | ]. split; [ apply in_seq; lia | ].
      destruct y as [ | z ]; [ discriminate | ].
      assert (hz : z mod 3 = 1).
      { pose proof (Nat.mod_upper_bound z 3). pose proof (Nat.div_mod z 3).
        pose proof (Nat.mod_upper_bound (S z) 3). pose proof (Nat.div_mod (S z) 3).
        lia. }
      rewrite hz. right. left. reflexivity. }
    destruct hchain as (y & hy1 & hy2 & hy3).
    assert (el : l = a ++ x :: (b ++ 0 :: post)) by (rewrite e, ea, <- app_assoc; reflexivity).
    pose proof (hres _ _ _ el y hy1 hy2) as hya.
    destruct (in_split _ _ hya) as (c & d & ec).
    assert (el2 : l = c ++ y :: (d ++ x :: b ++ 0 :: post)) by (rewrite el, ec, <- app_assoc; reflexivity).
    assert (h0n : In 0 (r_nodes (angles n))) by (apply in_seq; lia).
    pose proof (hres _ _ _ el2 0 hy3 h0n) as h0c.
    rewrite e, ea, ec in hnd. rewrite <- !app_assoc in hnd.
    destruct (in_split _ _ h0c) as (c1 & c2 & ->).
    rewrite <- app_assoc in hnd. simpl in hnd. apply NoDup_remove_2 in hnd. apply hnd.
    apply in_or_app. right. apply in_or_app. right. right. apply in_or_app. right. right.
    apply in_or_app. right. left. reflexivity. }
  (* all allocations before the constant *)
  assert (hall : forall k, k < n -> In (3 * k + 1) pre).
  { intros k hk.
    assert (hl : In (3 * k + 1) l) by (apply hin; apply in_seq; lia).
    assert (hop : r_op (angles n) (3 * k + 1) = TkQAlloc).
    { replace (3 * k + 1) with (S (k * 3)) by lia. cbn [angles r_op].
      rewrite Nat.mod_mul by lia. reflexivity. }
    assert (hdeps : r_deps (angles n) (3 * k + 1) = []).
    { replace (3 * k + 1) with (S (k * 3)) by lia. cbn [angles r_deps].
      rewrite Nat.mod_mul by lia. reflexivity. }
    rewrite e in hl. apply in_app_or in hl. destruct hl as [ hl | hl ]; [ exact hl | ].
    destruct hl as [ hl | hl ]; [ lia | ].
    destruct (put_off _ _ hg pre 0 post e (3 * k + 1) hl) as (z & z1 & _).
    - rewrite hop. unfold rank; simpl. lia.
    - exfalso. destruct z1 as [ a b q _ | a b c q _ _ ]; rewrite hdeps in q; destruct q. }
  pose proof (live_allocs (angles n) pre hno (map (fun k => 3 * k + 1) (seq 0 n))) as hla.
  rewrite map_length, seq_length in hla. apply hla.
  - apply FinFun.Injective_map_NoDup; [ intros a b hab; lia | apply seq_NoDup ].
  - intros a ha. apply in_map_iff in ha. destruct ha as (k & <- & hk). apply in_seq in hk.
    split; [ apply hall; lia | ]. left.
    replace (3 * k + 1) with (S (k * 3)) by lia. cbn [angles r_op].
    rewrite Nat.mod_mul by lia. reflexivity.
  - rewrite e in hnd. clear - hnd. induction pre as [ | x pre IH ]; [ constructor | ].
    inversion hnd as [ | y q h1 h2 ]; subst. constructor; auto.
    intro hi. apply h1. apply in_or_app. left. exact hi.
Qed.
