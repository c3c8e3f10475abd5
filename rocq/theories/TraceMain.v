(** Proofs of the properties of traces of rewrites and of calls into TKET1. *)
From Coq Require Import NArith List Bool Arith Lia.
From Verif Require Import TraceModel TraceSpec TraceProofs.
Import ListNotations.

Lemma C103_greedy_pf : forall body_t rw_t nodes run rs (c c' : circ body_t) l,
  rewrite_trace body_t true c = Some l ->
  greedy body_t rw_t nodes run true rs [] c = Some c' ->
  exists app, picks rw_t nodes [] rs app /\ runs body_t rw_t run app (body _ c) (body _ c')
    /\ rewrite_trace body_t true c' = Some (l ++ repeat (Some 1%N) (length app)).
Proof.
 intros. eapply greedy_ok; eassumption. Qed.

Lemma C103_exhaustive_partial_pf : forall body_t rw_t nodes run rs (c c' : circ body_t) l,
  rewrite_trace body_t true c = Some l ->
  exhaustive body_t rw_t nodes run true rs c = Some c' ->
  exists app, picks rw_t nodes [] rs app /\ runs body_t rw_t run app (body _ c) (body _ c')
    /\ ((N.of_nat (length app) < 65536)%N ->
        rewrite_trace body_t true c' = Some (l ++ [Some (N.of_nat (length app))])).
Proof.
  intros body_t rw_t nodes run rs c c' l hl h. unfold exhaustive in h.
  destruct (exhaustive_loop _ _ _ _ _ _ _ _) as [ [ c1 k ] | ] eqn:e; [ | discriminate ].
  apply (exhaustive_loop_ok body_t rw_t nodes run rs []) in e.
  destruct e as (app & h1 & h2 & h3 & h4). inversion h; subst. exists app.
  split; [ exact h1 | ]. rewrite add_trace_body. split; [ exact h2 | ]. intro hs.
  rewrite <- (trace_meta _ _ _ h3) in hl. rewrite (add_trace_trace _ _ _ _ hl).
  rewrite h4 by reflexivity. rewrite N.add_0_l. rewrite N.mod_mod by discriminate.
  rewrite N.mod_small by exact hs. reflexivity.
Qed.

Lemma C103_history_pf : forall body_t rw_t run (es : list (event rw_t)) (c : circ body_t) b',
  meta _ c = None \/ meta _ c = Some JNull ->
  happens body_t rw_t run es (body _ c) b' ->
  (forall e, In e es -> (N.of_nat (size e) < 65536)%N) ->
  let step c e := match e with
                  | One r => fst (apply body_t rw_t run true r c)
                  | Many rs => fst (add_trace body_t true (N.of_nat (length rs))
                                 (fold_left (fun c r => fst (apply_notrace body_t rw_t run r c)) rs c))
                  end in
  body _ (fold_left step es (enable body_t true c)) = b'
  /\ rewrite_trace body_t true (fold_left step es (enable body_t true c))
     = Some (map (fun e => Some (N.of_nat (size e))) es).
Proof.
  intros body_t rw_t run es c b' hm hh hs step.
  assert (many : forall rs c b, runs body_t rw_t run rs (body _ c) b ->
    body _ (fold_left (fun c r => fst (apply_notrace body_t rw_t run r c)) rs c) = b
    /\ meta _ (fold_left (fun c r => fst (apply_notrace body_t rw_t run r c)) rs c) = meta _ c).
  { induction rs as [ | r rs IH ]; intros c0 b h; inversion h as [ | ? ? ? b1 ? h1 h2 ]; subst;
      cbn [fold_left]; [ auto | ].
    assert (e : fst (apply_notrace body_t rw_t run r c0) = with_body _ c0 b1)
      by (unfold apply_notrace; rewrite h1; reflexivity).
    rewrite e. destruct (IH (with_body _ c0 b1) b h2) as (x & y). split; [ exact x | exact y ]. }
  assert (gen : forall es c l b, happens body_t rw_t run es (body _ c) b ->
    (forall e, In e es -> (N.of_nat (size e) < 65536)%N) ->
    rewrite_trace body_t true c = Some l ->
    body _ (fold_left step es c) = b
    /\ rewrite_trace body_t true (fold_left step es c)
       = Some (l ++ map (fun e => Some (N.of_nat (size e))) es)).
  { clear es c b' hm hh hs. induction es as [ | e es IH ]; intros c l b hh hs hl; cbn [fold_left map].
    - inversion hh; subst. rewrite app_nil_r. auto.
    - assert (hs' : forall x, In x es -> (N.of_nat (size x) < 65536)%N)
        by (intros x hx; apply hs; right; exact hx).
      inversion hh as [ | r es0 b0 b1 b2 h1 h2 | rs es0 b0 b1 b2 h1 h2 ]; subst.
      + destruct (apply body_t rw_t run true r c) as [ c1 ok ] eqn:e.
        assert (ok = true).
        { unfold apply, apply_notrace in e. rewrite add_trace_body, h1 in e. congruence. }
        subst ok. pose proof (apply_ok _ _ _ _ _ _ _ hl e) as (x & y).
        assert (ec : step c (One r) = c1) by (simpl; rewrite e; reflexivity). rewrite ec.
        rewrite h1 in x. inversion x; subst. destruct (IH _ _ _ h2 hs' y) as (p & q).
        split; [ exact p | ]. rewrite q, <- app_assoc. reflexivity.
      + destruct (many rs c b1 h1) as (x & y).
        set (c1 := fold_left (fun c r => fst (apply_notrace body_t rw_t run r c)) rs c) in *.
        assert (ec : step c (Many rs) = fst (add_trace body_t true (N.of_nat (length rs)) c1))
          by reflexivity.
        rewrite ec. assert (hl1 : rewrite_trace body_t true c1 = Some l)
          by (rewrite (trace_meta _ _ _ y); exact hl).
        pose proof (add_trace_trace _ (N.of_nat (length rs)) _ _ hl1) as z.
        pose proof (hs _ (or_introl eq_refl)) as w. cbn [size] in w.
        rewrite N.mod_small in z by exact w.
        assert (hh2 : happens body_t rw_t run es
                        (body _ (fst (add_trace body_t true (N.of_nat (length rs)) c1))) b)
          by (rewrite add_trace_body, x; exact h2).
        destruct (IH _ _ _ hh2 hs' z) as (p & q).
        split; [ exact p | ]. rewrite q, <- app_assoc. reflexivity. }
  apply (gen es (enable body_t true c) [] b'); [ | exact hs | ].
  - unfold enable. cbn [negb]. exact hh.
  - unfold enable, rewrite_trace, meta_mut. cbn [negb].
    destruct hm as [ -> | -> ]; reflexivity.
Qed.

Lemma C103_off_pf : forall body_t n (c : circ body_t),
  enable body_t false c = c /\ add_trace body_t false n c = (c, false)
  /\ rewrite_trace body_t false c = None
  /\ (rewrite_trace body_t true c = None ->
      rewrite_trace body_t true (fst (add_trace body_t true n c)) = None
      /\ snd (add_trace body_t true n c) = false)
  /\ body _ (fst (add_trace body_t true n c)) = body _ c.
Proof.
  intros body_t n c. split; [ reflexivity | ]. split; [ reflexivity | ]. split; [ reflexivity | ].
  split; [ apply add_trace_none | apply add_trace_body ].
Qed.

Lemma C103_enable_again_pf : forall body_t (c : circ body_t) l,
  rewrite_trace body_t true c = Some l ->
  rewrite_trace body_t true (enable body_t true c) = Some l /\ body _ (enable body_t true c) = body _ c.
Proof.
  intros body_t c l h. unfold rewrite_trace, enable, meta_mut in *. cbn [negb] in *.
  destruct (meta _ c) as [ [ | | a | ] | ]; try discriminate. auto.
Qed.

Lemma C103_failed_refuted_pf : forall body_t rw_t run r (c : circ body_t) l,
  rewrite_trace body_t true c = Some l -> run r (body _ c) = None ->
  exists c', apply body_t rw_t run true r c = (c', false) /\ body _ c' = body _ c
    /\ rewrite_trace body_t true c' = Some (l ++ [Some 1%N]).
Proof.
  intros body_t rw_t run r c l hl hr. unfold apply, apply_notrace. rewrite add_trace_body, hr.
  eexists. split; [ reflexivity | ]. split; [ apply add_trace_body | ].
  rewrite (add_trace_trace _ 1 _ _ hl). reflexivity.
Qed.

Lemma C103_wrapped_refuted_pf : forall body_t rw_t nodes run rs (c : circ body_t) l,
  rewrite_trace body_t true c = Some l ->
  (N.of_nat (length rs) = 65536)%N ->
  (forall r, nodes r = []) -> (forall r b, run r b = Some b) ->
  exists c', exhaustive body_t rw_t nodes run true rs c = Some c'
    /\ rewrite_trace body_t true c' = Some (l ++ [Some 0%N]).
Proof.
  intros body_t rw_t nodes run rs c l hl hn hnd hr.
  assert (tot : forall rs k (c : circ body_t), exists c' k',
            exhaustive_loop body_t rw_t nodes run rs [] k c = Some (c', k')).
  { clear rs c l hl hn. induction rs as [ | r rs IH ]; intros k c; cbn [exhaustive_loop]; [ eauto | ].
    cbn [negb andb]. unfold apply_notrace. rewrite hr, hnd. apply IH. }
  unfold exhaustive. destruct (tot rs 0%N c) as (c1 & k & e). rewrite e.
  eexists. split; [ reflexivity | ].
  apply (exhaustive_loop_ok body_t rw_t nodes run rs []) in e.
  destruct e as (app & h1 & _ & h3 & h4).
  assert (ha : app = rs).
  { clear - h1 hnd. remember (@nil rw_t) as prev eqn:ep. clear ep.
    induction h1 as [ | prev r rs app hq hp IH | prev r rs app q hq hm hp IH ].
    - reflexivity.
    - f_equal. exact IH.
    - exfalso. destruct hm as (n & h & _). rewrite hnd in h. exact h. }
  subst app. rewrite hn in h4. rewrite <- (trace_meta _ _ _ h3) in hl.
  rewrite (add_trace_trace _ _ _ _ hl). rewrite h4 by reflexivity. reflexivity.
Qed.

Lemma C103_metadata_refuted_pf : forall body_t (b : body_t),
  rewrite_trace body_t true {| body := b; meta := Some (JArr [JNum 65537; JOther]) |}
    = Some [Some 1%N; None]
  /\ rewrite_trace body_t true (enable body_t true {| body := b; meta := Some JOther |}) = None.
Proof.
 intros. split; reflexivity. Qed.

Lemma C104_memory_pf : forall circuit pass serial text to_vec from_str has_nul cfj ctj pfj ap j ss
    (h : heap circuit pass text),
  exists h' r, all_circuits circuit pass serial text to_vec from_str has_nul cfj ctj pfj ap j ss h
               = Some (h', r)
    /\ circuits _ _ _ h' = circuits _ _ _ h /\ passes _ _ _ h' = passes _ _ _ h.
Proof.
  intros. edestruct all_ok as (h' & r & e & hc & hp & _). exists h', r. split; [ exact e | auto ].
Qed.

Lemma C104_strings_partial_pf : forall circuit pass serial text to_vec from_str has_nul cfj ctj pfj ap
    j ss (h h' : heap circuit pass text) r,
  readable circuit serial text from_str ctj ->
  all_circuits circuit pass serial text to_vec from_str has_nul cfj ctj pfj ap j ss h = Some (h', r) ->
  strings _ _ _ h' = strings _ _ _ h.
Proof.
  intros circuit pass serial text to_vec from_str has_nul cfj ctj pfj ap j ss h h' r rd e.
  destruct (all_ok circuit pass serial text to_vec from_str has_nul cfj ctj pfj ap j ss h)
    as (h1 & r1 & e1 & _ & _ & hs & _).
  rewrite e in e1. inversion e1; subst. apply hs. exact rd.
Qed.

Lemma C104_result_pf : forall circuit pass serial text to_vec from_str has_nul cfj ctj pfj ap
    j ss ss' (h : heap circuit pass text),
  (exists h', all_circuits circuit pass serial text to_vec from_str has_nul cfj ctj pfj ap j ss h
              = Some (h', Ok ss'))
  <-> Forall2 (converts circuit pass serial text to_vec from_str has_nul cfj ctj pfj ap j) ss ss'.
Proof.
  intros circuit pass serial text to_vec from_str has_nul cfj ctj pfj ap j ss ss' h.
  destruct (all_ok circuit pass serial text to_vec from_str has_nul cfj ctj pfj ap j ss h)
    as (h1 & r1 & e1 & _ & _ & _ & hr). rewrite e1. split.
  - intros (h' & e). inversion e; subst. apply hr. reflexivity.
  - intro x. apply hr in x. subst. eauto.
Qed.

Lemma C104_parallel_pf : forall circuit pass serial text to_vec from_str has_nul cfj ctj pfj ap
    j order ss (h : heap circuit pass text),
  NoDup order -> (forall i, In i order -> i < length ss) ->
  let conv := converts circuit pass serial text to_vec from_str has_nul cfj ctj pfj ap j in
  exists h' ss' r,
    par_circuits circuit pass serial text to_vec from_str has_nul cfj ctj pfj ap j order ss h
    = Some (h', ss', r)
    /\ circuits _ _ _ h' = circuits _ _ _ h /\ passes _ _ _ h' = passes _ _ _ h
    /\ (readable circuit serial text from_str ctj -> strings _ _ _ h' = strings _ _ _ h)
    /\ length ss' = length ss
    /\ (forall i, ~ In i order -> nth_error ss' i = nth_error ss i)
    /\ (r = None <-> forall i s, In i order -> nth_error ss i = Some s -> exists s', conv s s')
    /\ (r = None -> forall i s, In i order -> nth_error ss i = Some s ->
          exists s', nth_error ss' i = Some s' /\ conv s s').
Proof.
  intros circuit pass serial text to_vec from_str has_nul cfj ctj pfj ap j order ss h hn hl conv.
  destruct (par_ok circuit pass serial text to_vec from_str has_nul cfj ctj pfj ap j order ss h hn hl)
    as (h' & ss' & r & e & hc & hp & hs & hlen & ho & hi & hr).
  exists h', ss', r. split; [ exact e | ]. split; [ exact hc | ]. split; [ exact hp | ].
  split; [ exact hs | ]. split; [ exact hlen | ]. split; [ exact ho | ].
  assert (ok : r = None -> forall i s, In i order -> nth_error ss i = Some s ->
          exists s', nth_error ss' i = Some s' /\ conv s s').
  { intros -> i s h1 h2. destruct (hi i s h1 h2) as [ x | (_ & _ & x) ]; [ exact x | congruence ]. }
  split; [ | exact ok ]. split.
  - intros hrn i s h1 h2. destruct (ok hrn i s h1 h2) as (s' & _ & x). eauto.
  - intro hall. destruct r as [ x | ]; [ | reflexivity ]. exfalso.
    destruct hr as (i & s & h1 & h2 & h3); [ discriminate | ].
    destruct (hall i s h1 h2) as (s' & hs'). exact (h3 s' hs').
Qed.

Lemma C104_order_pf : forall circuit pass serial text to_vec from_str has_nul cfj ctj pfj ap
    j order ss (h h' : heap circuit pass text) ss',
  NoDup order -> (forall i, In i order <-> i < length ss) ->
  par_circuits circuit pass serial text to_vec from_str has_nul cfj ctj pfj ap j order ss h
    = Some (h', ss', None) ->
  Forall2 (converts circuit pass serial text to_vec from_str has_nul cfj ctj pfj ap j) ss ss'.
Proof.
  intros circuit pass serial text to_vec from_str has_nul cfj ctj pfj ap j order ss h h' ss'
    hn hl e.
  destruct (C104_parallel_pf circuit pass serial text to_vec from_str has_nul cfj ctj pfj ap j order ss h hn)
    as (h2 & ss2 & r & e2 & _ & _ & _ & hlen & _ & _ & ok).
  { intros i hi. apply hl. exact hi. }
  rewrite e in e2. inversion e2; subst.
  assert (hnth : forall i s, nth_error ss i = Some s -> exists s', nth_error ss2 i = Some s'
            /\ converts circuit pass serial text to_vec from_str has_nul cfj ctj pfj ap j s s').
  { intros i s hs. apply (ok eq_refl i s); [ | exact hs ]. apply hl. apply nth_error_Some. congruence. }
  clear - hlen hnth. revert ss2 hlen hnth. induction ss as [ | s ss IH ]; intros [ | s2 ss2 ] hlen hnth;
    try discriminate; constructor.
  - destruct (hnth 0 s eq_refl) as (s' & a & b). inversion a; subst. exact b.
  - apply IH; [ simpl in hlen; lia | ]. intros i x hx. exact (hnth (S i) x hx).
Qed.

Lemma C104_leak_refuted_pf : forall circuit pass serial text to_vec from_str has_nul cfj ctj pfj ap
    j s t c p c' t' (h : heap circuit pass text),
  to_vec s = Some t -> has_nul t = false -> cfj t = Some c -> has_nul j = false ->
  pfj j = Some p -> ap c p = (true, c') -> ctj c' = (true, Some t') -> from_str t' = None ->
  exists h' n, all_circuits circuit pass serial text to_vec from_str has_nul cfj ctj pfj ap j [s] h
               = Some (h', Err JsonError)
    /\ strings _ _ _ h' = (n, t') :: strings _ _ _ h.
Proof.
  intros circuit pass serial text to_vec from_str has_nul cfj ctj pfj ap j s t c p c' t' h
    h1 h2 h3 h4 h5 h6 h7 h8.
  cbn [all_circuits]. unfold one_circuit, from_serial_circuit. rewrite h1, h2, h3.
  unfold run_from_json, from_json. rewrite h4, h5.
  cbv [run_pass]. cbn [circuits passes get next strings]. rewrite !Nat.eqb_refl, h6.
  cbv [drop_pass]. cbn [circuits passes get next strings put]. rewrite !Nat.eqb_refl. cbn [del].
  rewrite !Nat.eqb_refl.
  cbv [to_serial_circuit]. cbn [circuits passes get next strings]. rewrite !Nat.eqb_refl, h7.
  cbn [negb]. rewrite h8.
  cbv [drop_circuit]; cbn [circuits get]; rewrite Nat.eqb_refl. cbn [del]; rewrite Nat.eqb_refl.
  eexists _, _. split; reflexivity.
Qed.

