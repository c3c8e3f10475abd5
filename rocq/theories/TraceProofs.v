(** Proofs about traces of rewrites and calls into TKET1. *)
From Coq Require Import NArith List Bool Arith Lia.
From Verif Require Import TraceModel TraceSpec.
Import ListNotations.

Section Traces.
Variable body_t rw_t : Type.
Variable nodes : rw_t -> list nat.
Variable run : rw_t -> body_t -> option body_t.
Notation circ := (circ body_t).
Notation add_trace := (add_trace body_t true).
Notation rewrite_trace := (rewrite_trace body_t true).
Notation apply := (apply body_t rw_t run true).
Notation apply_notrace := (apply_notrace body_t rw_t run).

Lemma add_trace_body : forall t n c, body _ (fst (TraceModel.add_trace body_t t n c)) = body _ c.
Proof.
  intros t n c. unfold TraceModel.add_trace. destruct t; simpl; [ | reflexivity ].
  destruct (meta_mut _ c); reflexivity.
Qed.

Lemma add_trace_trace : forall n c l, rewrite_trace c = Some l ->
  rewrite_trace (fst (add_trace n c)) = Some (l ++ [Some (N.modulo n 65536)]).
Proof.
  intros n c l h. unfold TraceModel.rewrite_trace, TraceModel.add_trace, meta_mut in *.
  cbn [negb] in *. destruct (meta _ c) as [ [ | | a | ] | ]; try discriminate.
  cbn [fst with_meta meta]. inversion h; subst. rewrite map_app. reflexivity.
Qed.

Lemma add_trace_none : forall n c, rewrite_trace c = None ->
  rewrite_trace (fst (add_trace n c)) = None /\ snd (add_trace n c) = false.
Proof.
  intros n c h. unfold TraceModel.rewrite_trace, TraceModel.add_trace, meta_mut in *.
  cbn [negb] in *. destruct (meta _ c) as [ [ | | a | ] | ]; try discriminate; auto.
Qed.

Lemma apply_notrace_ok : forall r c c', apply_notrace r c = (c', true) ->
  run r (body _ c) = Some (body _ c') /\ meta _ c' = meta _ c.
Proof.
  intros r c c' h. unfold TraceModel.apply_notrace in h.
  destruct (run r (body _ c)); inversion h; subst. auto.
Qed.

Lemma trace_meta : forall (c c' : circ), meta _ c' = meta _ c -> rewrite_trace c' = rewrite_trace c.
Proof. intros c c' h. unfold TraceModel.rewrite_trace. rewrite h. reflexivity. Qed.

Lemma apply_ok : forall r c c' l, rewrite_trace c = Some l -> apply r c = (c', true) ->
  run r (body _ c) = Some (body _ c') /\ rewrite_trace c' = Some (l ++ [Some 1%N]).
Proof.
  intros r c c' l hl h. unfold TraceModel.apply in h. apply apply_notrace_ok in h.
  destruct h as (h1 & h2). rewrite add_trace_body in h1. split; [ exact h1 | ].
  rewrite (trace_meta _ _ h2). rewrite (add_trace_trace 1 c l hl). reflexivity.
Qed.

Lemma mem_in : forall n l, mem n l = true <-> In n l.
Proof.
  intros n l. unfold mem. rewrite existsb_exists. split.
  - intros (x & h & e). apply Nat.eqb_eq in e. subst. exact h.
  - intro h. exists n. split; [ exact h | apply Nat.eqb_refl ].
Qed.

(** The nodes that were changed are those of the rewrites before. *)
Lemma changed_meet : forall prev r,
  existsb (fun n => mem n (flat_map nodes prev)) (nodes r) = true
  <-> exists q, In q prev /\ meet rw_t nodes r q.
Proof.
  intros prev r. rewrite existsb_exists. split.
  - intros (n & h1 & h2). apply mem_in in h2. apply in_flat_map in h2. destruct h2 as (q & hq & hn).
    exists q. split; [ exact hq | ]. exists n. auto.
  - intros (q & hq & n & h1 & h2). exists n. split; [ exact h1 | ]. apply mem_in.
    apply in_flat_map. exists q. auto.
Qed.

Lemma greedy_ok : forall rs prev c c' l, rewrite_trace c = Some l ->
  greedy body_t rw_t nodes run true rs (flat_map nodes prev) c = Some c' ->
  exists app, picks rw_t nodes prev rs app /\ runs body_t rw_t run app (body _ c) (body _ c')
    /\ rewrite_trace c' = Some (l ++ repeat (Some 1%N) (length app)).
Proof.
  induction rs as [ | r rs IH ]; intros prev c c' l hl h; cbn [greedy] in h.
  - inversion h; subst. exists []. split; [ constructor | ]. split; [ constructor | ].
    simpl. rewrite app_nil_r. exact hl.
  - destruct (existsb _ _) eqn:e.
    + apply changed_meet in e. destruct e as (q & hq & hm).
      destruct (IH _ _ _ _ hl h) as (app & h1 & h2 & h3). exists app. split; [ | auto ].
      eapply picks_skip; eauto.
    + destruct (apply r c) as [ c1 [] ] eqn:ea; [ | discriminate ].
      destruct (apply_ok _ _ _ _ hl ea) as (hr & ht).
      replace (flat_map nodes prev ++ nodes r) with (flat_map nodes (prev ++ [r])) in h
        by (rewrite flat_map_app; simpl; rewrite app_nil_r; reflexivity).
      destruct (IH _ _ _ _ ht h) as (app & h1 & h2 & h3). exists (r :: app).
      split; [ | split ].
      * apply picks_take; [ | exact h1 ]. intros q hq hm.
        assert (x : existsb (fun n => mem n (flat_map nodes prev)) (nodes r) = true)
          by (apply changed_meet; eauto).
        congruence.
      * econstructor; eassumption.
      * rewrite h3, <- app_assoc. reflexivity.
Qed.

Lemma exhaustive_loop_ok : forall rs prev count c c' k,
  exhaustive_loop body_t rw_t nodes run rs (flat_map nodes prev) count c = Some (c', k) ->
  exists app, picks rw_t nodes prev rs app /\ runs body_t rw_t run app (body _ c) (body _ c')
    /\ meta _ c' = meta _ c
    /\ (count < 65536 -> k = N.modulo (count + N.of_nat (length app)) 65536)%N.
Proof.
  induction rs as [ | r rs IH ]; intros prev count c c' k h; cbn [exhaustive_loop] in h.
  - inversion h; subst. exists []. split; [ constructor | ]. split; [ constructor | ].
    split; [ reflexivity | ]. intro hc. simpl. rewrite N.add_0_r. symmetry. apply N.mod_small. exact hc.
  - destruct (negb _ && existsb _ _) eqn:e.
    + apply andb_prop in e. destruct e as (_ & e). apply changed_meet in e.
      destruct e as (q & hq & hm).
      destruct (IH _ _ _ _ _ h) as (app & h1 & h2). exists app. split; [ | exact h2 ].
      eapply picks_skip; eauto.
    + destruct (apply_notrace r c) as [ c1 [] ] eqn:ea; [ | discriminate ].
      destruct (apply_notrace_ok _ _ _ ea) as (hr & hm).
      replace (flat_map nodes prev ++ nodes r) with (flat_map nodes (prev ++ [r])) in h
        by (rewrite flat_map_app; simpl; rewrite app_nil_r; reflexivity).
      destruct (IH _ _ _ _ _ h) as (app & h1 & h2 & h3 & h4). exists (r :: app).
      split; [ | split; [ | split ] ].
      * apply picks_take; [ | exact h1 ]. intros q hq hmm.
        assert (x : existsb (fun n => mem n (flat_map nodes prev)) (nodes r) = true)
          by (apply changed_meet; eauto).
        rewrite x, andb_true_r in e. apply negb_false_iff in e.
        destruct (flat_map nodes prev) eqn:ef; [ | discriminate ].
        destruct hmm as (n & _ & hn).
        assert (hin : In n (flat_map nodes prev)) by (apply in_flat_map; eauto).
        rewrite ef in hin. exact hin.
      * econstructor; eassumption.
      * congruence.
      * intro hc. rewrite h4 by (apply N.mod_lt; discriminate).
        rewrite N.add_mod_idemp_l by discriminate. f_equal. simpl length. lia.
Qed.
End Traces.

Section Tket1.
Variable circuit pass serial text : Type.
Variable to_vec : serial -> option text.
Variable from_str : text -> option serial.
Variable has_nul : text -> bool.
Variable circuit_from_json : text -> option circuit.
Variable circuit_to_json : circuit -> bool * option text.
Variable pass_from_json : text -> option pass.
Variable apply_pass : circuit -> pass -> bool * circuit.
Notation heap := (heap circuit pass text).
Notation one := (one_circuit circuit pass serial text to_vec from_str has_nul circuit_from_json
                   circuit_to_json pass_from_json apply_pass).
Notation all := (all_circuits circuit pass serial text to_vec from_str has_nul circuit_from_json
                   circuit_to_json pass_from_json apply_pass).
Notation converts := (converts circuit pass serial text to_vec from_str has_nul circuit_from_json
                   circuit_to_json pass_from_json apply_pass).
Notation readable := (readable circuit serial text from_str circuit_to_json).

(** One circuit: everything is freed but for strings that cannot be read. *)
Lemma one_ok : forall j s (h : heap), exists h' r, one j s h = Some (h', r)
  /\ circuits _ _ _ h' = circuits _ _ _ h /\ passes _ _ _ h' = passes _ _ _ h
  /\ (forall s', r = Ok s' <-> converts j s s')
  /\ (strings _ _ _ h' = strings _ _ _ h
      \/ exists n c ok t, strings _ _ _ h' = (n, t) :: strings _ _ _ h /\ (exists e, r = Err e)
           /\ circuit_to_json c = (ok, Some t) /\ (ok = false \/ from_str t = None)).
Proof.
  intros j s h. unfold one_circuit, from_serial_circuit.
  assert (neg : forall e, (forall s', ~ converts j s s') ->
            forall s', (Err e : result serial) = Ok s' <-> converts j s s')
    by (intros e hn s'; split; [ discriminate | intro x; exfalso; exact (hn s' x) ]).
  destruct (to_vec s) as [ t | ] eqn:e1.
  2: { exists h, (Err JsonError). repeat split; auto; try discriminate.
       intros (t & c & p & c' & t' & h1 & _). congruence. }
  destruct (has_nul t) eqn:e2.
  { exists h, (Err NullPointer). repeat split; auto; try discriminate.
    intros (t0 & c & p & c' & t' & h1 & h2 & _). congruence. }
  destruct (circuit_from_json t) as [ c | ] eqn:e3.
  2: { exists h, (Err JsonError). repeat split; auto; try discriminate.
       intros (t0 & c & p & c' & t' & h1 & h2 & h3 & _). congruence. }
  unfold run_from_json, from_json.
  destruct (has_nul j) eqn:e4.
  { cbv [drop_circuit]. cbn [circuits get]. rewrite Nat.eqb_refl. cbn [del]. rewrite Nat.eqb_refl.
    eexists _, _. split; [ reflexivity | ]. cbn [circuits passes strings].
    repeat split; auto; try discriminate.
    intros (t0 & c0 & p & c' & t' & h1 & h2 & h3 & h4 & _). congruence. }
  destruct (pass_from_json j) as [ p | ] eqn:e5.
  2: { cbv [drop_circuit]. cbn [circuits get]. rewrite Nat.eqb_refl. cbn [del]. rewrite Nat.eqb_refl.
       eexists _, _. split; [ reflexivity | ]. cbn [circuits passes strings].
       repeat split; auto; try discriminate.
       intros (t0 & c0 & p & c' & t' & h1 & h2 & h3 & h4 & h5 & _). congruence. }
  cbv [run_pass]. cbn [circuits passes get next strings]. rewrite !Nat.eqb_refl.
  destruct (apply_pass c p) as [ ok c' ] eqn:e6.
  cbv [drop_pass]. cbn [circuits passes get next strings put]. rewrite !Nat.eqb_refl. cbn [del].
  rewrite !Nat.eqb_refl.
  destruct ok.
  2: { cbv [drop_circuit]. cbn [circuits get]. rewrite Nat.eqb_refl. cbn [del]. rewrite Nat.eqb_refl.
       eexists _, _. split; [ reflexivity | ]. cbn [circuits passes strings].
       repeat split; auto; try discriminate.
       intros (t0 & c0 & p0 & c1 & t' & h1 & h2 & h3 & h4 & h5 & h6 & _). congruence. }
  cbv [to_serial_circuit]. cbn [circuits passes get next strings]. rewrite !Nat.eqb_refl.
  destruct (circuit_to_json c') as [ ok mj ] eqn:e7.
  destruct ok; cbn [negb].
  2: { destruct mj as [ t' | ]; cbv [drop_circuit]; cbn [circuits get]; rewrite Nat.eqb_refl;
         cbn [del]; rewrite Nat.eqb_refl; eexists _, _; (split; [ reflexivity | ]);
         cbn [circuits passes strings]; (split; [ reflexivity | ]); (split; [ reflexivity | ]);
         (split; [ apply neg; intros s' (t0 & c0 & p0 & c1 & t1 & h1 & h2 & h3 & h4 & h5 & h6 & h7 & _);
                   congruence | ]).
       - right. exists (S (S (next _ _ _ h))), c', false, t'. split; [ reflexivity | ].
         split; [ eauto | ]. split; [ exact e7 | left; reflexivity ].
       - left. reflexivity. }
  destruct mj as [ t' | ].
  2: { cbv [drop_circuit]; cbn [circuits get]; rewrite Nat.eqb_refl.
       cbn [del]; rewrite Nat.eqb_refl. eexists _, _; (split; [ reflexivity | ]).
       cbn [circuits passes strings]; (split; [ reflexivity | ]); (split; [ reflexivity | ]).
       split; [ apply neg; intros s' (t0 & c0 & p0 & c1 & t1 & h1 & h2 & h3 & h4 & h5 & h6 & h7 & _);
                   congruence | left; reflexivity ]. }
  destruct (from_str t') as [ s1 | ] eqn:e8.
  2: { cbv [drop_circuit]; cbn [circuits get]; rewrite Nat.eqb_refl.
       cbn [del]; rewrite Nat.eqb_refl. eexists _, _; (split; [ reflexivity | ]).
       cbn [circuits passes strings]; (split; [ reflexivity | ]); (split; [ reflexivity | ]).
       split; [ apply neg; intros s' (t0 & c0 & p0 & c1 & t1 & h1 & h2 & h3 & h4 & h5 & h6 & h7 & h8);
                   congruence | ].
       right. exists (S (S (next _ _ _ h))), c', true, t'. split; [ reflexivity | ].
       split; [ eauto | ]. split; [ exact e7 | right; exact e8 ]. }
  cbv [free_string]. cbn [strings get next pred circuits passes]. rewrite Nat.eqb_refl.
  cbn [del]. rewrite Nat.eqb_refl.
  cbv [drop_circuit]; cbn [circuits get strings passes next]; rewrite Nat.eqb_refl.
  cbn [del]; rewrite Nat.eqb_refl. eexists _, _; (split; [ reflexivity | ]).
  cbn [circuits passes strings]; (split; [ reflexivity | ]); (split; [ reflexivity | ]).
  split; [ | left; reflexivity ].
  intro s'. split.
  - intro x. inversion x; subst. exists t, c, p, c', t'. repeat split; assumption.
  - intros (t0 & c0 & p0 & c1 & t1 & h1 & h2 & h3 & h4 & h5 & h6 & h7 & h8). congruence.
Qed.

Lemma all_ok : forall j ss (h : heap), exists h' r, all j ss h = Some (h', r)
  /\ circuits _ _ _ h' = circuits _ _ _ h /\ passes _ _ _ h' = passes _ _ _ h
  /\ (readable -> strings _ _ _ h' = strings _ _ _ h)
  /\ (forall ss', r = Ok ss' <-> Forall2 (converts j) ss ss').
Proof.
  intros j. induction ss as [ | s ss IH ]; intro h; cbn [all_circuits].
  - exists h, (Ok []). repeat split; auto.
    + intro x. inversion x. constructor.
    + intro x. inversion x. reflexivity.
  - destruct (one_ok j s h) as (h1 & r1 & e1 & hc1 & hp1 & hr1 & hs1). rewrite e1.
    assert (hs : readable -> strings _ _ _ h1 = strings _ _ _ h).
    { intro rd. destruct hs1 as [ x | (n & c & ok & t & _ & _ & ht & hf) ]; [ exact x | ].
      destruct (rd _ _ _ ht) as (a & b). destruct hf; congruence. }
    destruct r1 as [ s1 | e ].
    + destruct (IH h1) as (h2 & r2 & e2 & hc2 & hp2 & hs2 & hr2). rewrite e2.
      assert (hcv : converts j s s1) by (apply hr1; reflexivity).
      exists h2. destruct r2 as [ ss1 | e ].
      * exists (Ok (s1 :: ss1)). split; [ reflexivity | ]. split; [ congruence | ].
        split; [ congruence | ]. split; [ intro rd; rewrite hs2, hs by exact rd; reflexivity | ].
        intro ss'. split.
        { intro x. inversion x; subst. constructor; [ exact hcv | ]. apply hr2. reflexivity. }
        { intro x. inversion x as [ | a b c d y z ]; subst. apply hr2 in z. inversion z; subst.
          apply hr1 in y. congruence. }
      * exists (Err e). split; [ reflexivity | ]. split; [ congruence | ].
        split; [ congruence | ]. split; [ intro rd; rewrite hs2, hs by exact rd; reflexivity | ].
        intro ss'. split; [ discriminate | ]. intro x. inversion x as [ | a b c d y z ]; subst.
        apply hr2 in z. discriminate.
    + exists h1, (Err e). split; [ reflexivity | ]. split; [ exact hc1 | ]. split; [ exact hp1 | ].
      split; [ exact hs | ]. intro ss'. split; [ discriminate | ]. intro x.
      inversion x as [ | a b c d y z ]; subst. apply hr1 in y. discriminate.
Qed.

Lemma set_nth_same : forall i x (l : list serial), i < length l -> nth_error (set_nth serial i x l) i = Some x.
Proof.
  induction i as [ | i IH ]; intros x [ | y l ] h; simpl in *; try lia; [ reflexivity | ].
  apply IH. lia.
Qed.
Lemma set_nth_other : forall i k x (l : list serial), i <> k -> nth_error (set_nth serial i x l) k = nth_error l k.
Proof.
  induction i as [ | i IH ]; intros [ | k ] x [ | y l ] h; simpl; try reflexivity; try congruence.
  apply IH. congruence.
Qed.
Lemma set_nth_length : forall i x (l : list serial), length (set_nth serial i x l) = length l.
Proof.
  induction i as [ | i IH ]; intros x [ | y l ]; simpl; try reflexivity. rewrite IH. reflexivity.
Qed.

Notation par := (par_circuits circuit pass serial text to_vec from_str has_nul circuit_from_json
                   circuit_to_json pass_from_json apply_pass).

Lemma par_ok : forall j order ss (h : heap), NoDup order -> (forall i, In i order -> i < length ss) ->
  exists h' ss' r, par j order ss h = Some (h', ss', r)
    /\ circuits _ _ _ h' = circuits _ _ _ h /\ passes _ _ _ h' = passes _ _ _ h
    /\ (readable -> strings _ _ _ h' = strings _ _ _ h)
    /\ length ss' = length ss
    /\ (forall i, ~ In i order -> nth_error ss' i = nth_error ss i)
    /\ (forall i s, In i order -> nth_error ss i = Some s ->
         (exists s', nth_error ss' i = Some s' /\ converts j s s')
         \/ ((forall s', ~ converts j s s') /\ nth_error ss' i = Some s /\ r <> None))
    /\ (r <> None -> exists i s, In i order /\ nth_error ss i = Some s /\ forall s', ~ converts j s s').
Proof.
  intro j. induction order as [ | i order IH ]; intros ss h hn hl; cbn [par_circuits].
  - exists h, ss, None. repeat split; auto; contradiction.
  - inversion hn as [ | ? ? hni hn' ]; subst.
    assert (hi : i < length ss) by (apply hl; left; reflexivity).
    destruct (nth_error ss i) as [ s | ] eqn:es.
    2: { apply nth_error_None in es. lia. }
    destruct (one_ok j s h) as (h1 & r1 & e1 & hc1 & hp1 & hr1 & hs1). rewrite e1.
    assert (hs : readable -> strings _ _ _ h1 = strings _ _ _ h).
    { intro rd. destruct hs1 as [ x | (n & c & ok & t & _ & _ & ht & hf) ]; [ exact x | ].
      destruct (rd _ _ _ ht) as (a & b). destruct hf; congruence. }
    destruct r1 as [ s1 | e ].
    + destruct (IH (set_nth serial i s1 ss) h1 hn') as (h2 & ss2 & r2 & e2 & hc2 & hp2 & hs2 & hl2 & ho2 & hi2 & hr2).
      { intros k hk. rewrite set_nth_length. apply hl. right. exact hk. }
      rewrite e2. exists h2, ss2, r2. split; [ reflexivity | ]. split; [ congruence | ].
      split; [ congruence | ]. split; [ intro rd; rewrite hs2, hs by exact rd; reflexivity | ].
      rewrite set_nth_length in hl2. split; [ exact hl2 | ]. split; [ | split ].
      * intros k hk. rewrite ho2 by (intro x; apply hk; right; exact x).
        apply set_nth_other. intros ->. apply hk. left. reflexivity.
      * intros k sk hk ek. destruct hk as [ <- | hk ].
        { left. exists s1. rewrite ho2 by exact hni. rewrite set_nth_same by exact hi.
          split; [ reflexivity | ]. rewrite es in ek. inversion ek; subst. apply hr1. reflexivity. }
        { apply hi2; [ exact hk | ]. rewrite set_nth_other; [ exact ek | ]. intros ->. contradiction. }
      * intro hr. destruct (hr2 hr) as (k & sk & hk & ek & hnc). exists k, sk.
        split; [ right; exact hk | ]. split; [ | exact hnc ].
        rewrite set_nth_other in ek; [ exact ek | ]. intros ->. contradiction.
    + destruct (IH ss h1 hn') as (h2 & ss2 & r2 & e2 & hc2 & hp2 & hs2 & hl2 & ho2 & hi2 & hr2).
      { intros k hk. apply hl. right. exact hk. }
      rewrite e2. exists h2, ss2, (Some e). split; [ reflexivity | ]. split; [ congruence | ].
      split; [ congruence | ]. split; [ intro rd; rewrite hs2, hs by exact rd; reflexivity | ].
      split; [ exact hl2 | ].
      assert (hnc : forall s', ~ converts j s s') by (intros s' x; apply hr1 in x; discriminate).
      split; [ | split ].
      * intros k hk. apply ho2. intro x. apply hk. right. exact x.
      * intros k sk hk ek. destruct hk as [ <- | hk ].
        { right. rewrite es in ek. inversion ek; subst. split; [ exact hnc | ].
          split; [ rewrite ho2 by exact hni; exact es | discriminate ]. }
        { destruct (hi2 k sk hk ek) as [ x | (x & y & _) ]; [ left; exact x | right ].
          split; [ exact x | split; [ exact y | discriminate ] ]. }
      * intros _. exists i, s. split; [ left; reflexivity | ]. split; [ exact es | exact hnc ].
Qed.
End Tket1.
