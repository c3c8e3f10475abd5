(** Proofs of the properties of the modification of whole regions (C66 to C70). *)
From Coq Require Import Reals ZArith List Bool Arith Lia Permutation.
From Verif Require Import OpsModel ResolveModel ResolveSpec DfgModel DfgSpec DfgProofs DfgProofs2 DfgProofs3 DfgProofs4 DfgProofs5 DfgProofs6 DfgProofs7 QState GateSpec ModifierModel DfgSem DfgProofs8.
Import ListNotations.
Local Open Scope nat_scope.

Lemma C66_well_formed_pf : forall d n g order, wf g -> flat g -> topological g order ->
  (d = true -> reversible_rows (g_ins g) (g_outs g)) ->
  exists g', modify_region d n order g = Some g' /\ wf g' /\ (exists order', topological g' order') /\
    g_ins g' = repeat true n ++ g_ins g /\ g_outs g' = repeat true n ++ g_outs g /\
    forall k o', In (k, o') (g_nodes g') <->
      exists o, In (k, o) (g_nodes g) /\ o' = match o with Gate u _ _ => Gate u d n | Copied _ _ _ => o end.
Proof.
  intros d n g order W Fl Tp Rv.
  destruct (region_ok d n g order W Fl Rv Tp) as (g' & M & Gi & Go & Gn & E & Ge & FE).
  exists g'. split; auto. split; [apply (new_wf d n g order W Fl Rv Tp g' E); auto|]. split.
  - exists (new_order d g order). apply (new_topological d n g order W Fl Rv Tp g' E); auto.
  - split; auto. split; auto. intros k o'. rewrite (new_nodes d n g order W Rv Tp g' Gn).
    split; intros (o & J & ->); exists o; split; auto; destruct o; auto.
Qed.

Lemma C66_refused_pf : forall d n g order g', d = true \/ 0 < n -> modify_region d n order g = Some g' ->
  forall k, In k order -> exists o, In (k, o) (g_nodes g) /\
    match o with Gate (Tk u) d' n' => is_quantum u = true /\ d' = false /\ n' = 0 | Gate Ph d' n' => d' = false /\ n' = 0 | Copied _ _ _ => True end.
Proof.
  intros d n g order g' _ M k J. unfold modify_region in M.
  destruct (wire_body _ _ _ _ _ _ _); [|discriminate]. destruct (insert_all _ _); [|discriminate].
  destruct (visit_all _ _ _ _ _) as [s|] eqn:V; [|discriminate]. clear M.
  assert (J' : In k (if d then rev order else order)) by (destruct d; auto; apply -> in_rev; auto). clear J.
  revert V. generalize {| s_map := l0; s_controls := map (fun i => (Inp, i)) (seq 0 n); s_nodes := []; s_edges := [] |}.
  induction (if d then rev order else order) as [|x w IH]; intros s0 V; [destruct J'|].
  simpl in V. destruct (find_node (g_nodes g) x) as [o|] eqn:F; [|discriminate].
  destruct (visit d n s0 x o) as [s1|] eqn:Vx; [|discriminate].
  destruct J' as [<-|J']; [|apply (IH J' _ V)].
  exists o. split.
  - unfold find_node in F. destruct (find _ _) as [[a b]|] eqn:Fd; [|discriminate]. injection F as <-.
    apply find_some in Fd. destruct Fd as [Jn E]. simpl in *. apply Nat.eqb_eq in E. subst a. auto.
  - destruct o as [u d' n'|]; auto. simpl in Vx. destruct d'; [discriminate|]. destruct n'; [|discriminate].
    destruct u as [u|]; auto. simpl in Vx. destruct (is_quantum u); [auto|discriminate].
Qed.

Lemma C67_one_run_pf : forall (A : Type) (cl : nat -> list A -> nat -> A) g order ins,
  wf g -> topological g order ->
  (forall k l i o, In (k, Copied l i o) (g_nodes g) -> forall b, In b (i ++ o) -> b = false) ->
  Forall2 of_type (g_ins g) ins -> NoDup (names ins) ->
  exists outs val es, carries cl g ins outs val /\ trace g val order es /\
    Permutation (names outs) (names ins) /\
    (forall o d cs ts a, In (Ev o d cs ts a) es -> NoDup (cs ++ ts) /\ forall q, In q (cs ++ ts) -> In q (names ins)) /\
    forall outs' val' es', carries cl g ins outs' val' -> trace g val' order es' ->
      outs' = outs /\ es' = es /\ forall s b, source g s b -> val' s = val s.
Proof.
  intros A cl g order ins W Tp Cls Ti Ni.
  destruct (run_exists g order W Tp A cl Cls ins Ti) as (val & outs & Ca).
  destruct (trace_exists g W A cl ins outs val Ca order) as (es & T).
  { intros k J. apply (order_node g order Tp). auto. }
  exists outs, val, es. split; auto. split; auto. split; [apply (names_kept g order W Tp A cl ins outs val Ca Cls)|]. split.
  - assert (Ev1 : forall l es, trace g val l es -> forall e, In e es -> exists k, is_event g val k e).
    { clear. intros l es T. induction T; intros e' J; [destruct J| |auto].
      destruct J as [<-|J]; eauto. }
    intros o d cs ts a J. destruct (Ev1 _ _ T _ J) as (k & Ie).
    apply (event_names g order W Tp A cl ins outs val Ca Cls Ni k o d cs ts a Ie).
  - intros outs' val' es' Ca' T'. split; [apply (same_outs g order W Tp A cl ins outs' outs val' val Ca' Ca)|].
    split; [apply (same_trace g order W Tp A cl ins outs' outs val' val Ca' Ca order); auto|].
    intros s b Hs. apply (same_values g order W Tp A cl ins outs' outs val' val Ca' Ca s b Hs).
Qed.

Lemma C67_any_order_pf : forall (A : Type) (cl : nat -> list A -> nat -> A) g order order' ins outs val es,
  wf g -> topological g order -> topological g order' ->
  (forall k l i o, In (k, Copied l i o) (g_nodes g) -> forall b, In b (i ++ o) -> b = false) ->
  carries cl g ins outs val -> NoDup (names ins) -> trace g val order es ->
  exists es', trace g val order' es' /\ swaps share es es'.
Proof.
  intros A cl g order order' ins outs val es W Tp Tp' Cls Ca Ni T.
  apply (orders_swaps g order order' W Tp Tp' A cl ins outs val Ca Cls Ni es T).
Qed.

Lemma C68_modified_run_pf : forall (A : Type) (cl : nat -> list A -> nat -> A) d g order g' ins outs val es cs ins' outs',
  wf g -> flat g -> topological g order -> (d = true -> reversible_rows (g_ins g) (g_outs g)) ->
  modify_region d (length cs) order g = Some g' ->
  carries cl g ins outs val -> trace g val order es ->
  (if d then exchanged (g_ins g) (g_outs g) ins outs ins' outs' else ins' = ins /\ outs' = outs) ->
  exists order' val', topological g' order' /\
    carries cl g' (map Qb cs ++ ins') (map Qb cs ++ outs') val' /\
    trace g' val' order' (modified_events d cs es).
Proof.
  intros A cl d g order g' ins outs val es cs ins' outs' W Fl Tp Rv M Ca T Ex.
  destruct (region_ok d (length cs) g order W Fl Rv Tp) as (g1 & M1 & Gi & Go & Gn & E & Ge & FE).
  rewrite M in M1. injection M1 as <-.
  exists (new_order d g order), (new_val (length cs) g A ins' val cs).
  split; [apply (new_topological d (length cs) g order W Fl Rv Tp g' E); auto|].
  split; [apply (new_carries d (length cs) g order W Fl Rv Tp g' E Gi Go Gn Ge FE A cl ins outs ins' outs' val cs); auto|].
  apply (new_trace_order d (length cs) g order W Fl Rv Tp g' E Gn Ge FE A cl ins outs ins' outs' val cs); auto.
Qed.

Lemma C68_every_run_pf : forall (A : Type) (cl : nat -> list A -> nat -> A) g order (ins' : list (value A)),
  wf g -> flat g -> topological g order -> reversible_rows (g_ins g) (g_outs g) ->
  Forall2 of_type (g_ins g) ins' ->
  exists ins outs val es outs', carries cl g ins outs val /\ trace g val order es /\
    exchanged (g_ins g) (g_outs g) ins outs ins' outs' /\ Permutation (names ins) (names ins').
Proof.
  intros A cl g order ins' W Fl Tp R Ti.
  destruct (dagger_cover A cl g order W Fl Tp R ins' Ti) as (ins & outs & val & outs' & Ca & Ex & Ti0 & P).
  destruct (trace_exists g W A cl ins outs val Ca order) as (es & T).
  { intros k J. apply (order_node g order Tp). auto. }
  exists ins, outs, val, es, outs'. split; auto. split; auto. split; auto.
  rewrite P. apply Permutation_sym.
  apply (names_kept g order W Tp A cl ins outs val Ca). intros k l i o J. apply (Fl _ _ J).
Qed.

Lemma C69_meaning_pf : forall (A : Type) (cl : nat -> list A -> nat -> A) (ang : A -> R) (d : bool) g order g' ins outs val es cs ins' outs',
  wf g -> flat g -> topological g order -> (d = true -> reversible_rows (g_ins g) (g_outs g)) ->
  (forall k o d' n', In (k, Gate o d' n') (g_nodes g) -> right_with (length cs) o) ->
  modify_region d (length cs) order g = Some g' ->
  carries cl g ins outs val -> trace g val order es -> NoDup (cs ++ names ins) ->
  (if d then exchanged (g_ins g) (g_outs g) ins outs ins' outs' else ins' = ins /\ outs' = outs) ->
  exists order' val' es' rs, topological g' order' /\
    carries cl g' (map Qb cs ++ ins') (map Qb cs ++ outs') val' /\ trace g' val' order' es' /\
    Forall2 (synthesised ang) es' rs /\ Forall gate_wf (flat_map r_gates rs) /\
    forall psi,
      if d then run (flat_map r_gates rs) (when_all1 cs (run (map (gate_of ang) es)) psi) = psi /\
                when_all1 cs (run (map (gate_of ang) es)) (run (flat_map r_gates rs) psi) = psi
      else run (flat_map r_gates rs) psi = when_all1 cs (run (map (gate_of ang) es)) psi.
Proof.
  intros A cl ang d g order g' ins outs val es cs ins' outs' W Fl Tp Rv Rt M Ca T N Ex.
  destruct (C68_modified_run_pf A cl d g order g' ins outs val es cs ins' outs' W Fl Tp Rv M Ca T Ex) as (order' & val' & Tp' & Ca' & T').
  assert (Cls : forall k l i o, In (k, Copied l i o) (g_nodes g) -> forall b, In b (i ++ o) -> b = false).
  { intros k l i o J. apply (Fl _ _ J). }
  apply NoDup_app_iff' in N. destruct N as (Nc & Ni & Nd).
  assert (Ev1 : forall l es, trace g val l es -> forall e, In e es -> exists k, is_event g val k e).
  { clear. intros l es T. induction T; intros e' J; [destruct J| |auto]. destruct J as [<-|J]; eauto. }
  assert (H : forall e, In e es -> plain A e /\ event_ok A e /\ (forall q, In q (qubits_of e) -> ~ In q cs) /\
                match e with Ev o _ _ _ _ => right_with (length cs) o end).
  { intros e J. destruct (Ev1 _ _ T _ J) as (k & Ie). destruct e as [o d' cs' ts a].
    destruct (event_names g order W Tp A cl ins outs val Ca Cls Ni k o d' cs' ts a Ie) as [Nq Iq].
    destruct Ie as (No & L & _). destruct (Fl _ _ No) as (-> & Lc & Q). destruct cs'; [|discriminate].
    split; [simpl; auto|]. split; [|split].
    - simpl. split; auto. destruct o as [t|]; auto. simpl in L. destruct ts; auto. discriminate.
    - intros q J1 J2. apply (Nd q); auto.
    - apply (Rt _ _ _ _ No). }
  destruct (events_synth A ang (modified_events d cs es)) as (rs & F & Wf & R).
  { intros e J. unfold modified_events in J. apply in_map_iff in J. destruct J as (e0 & <- & J).
    assert (J0 : In e0 es) by (destruct d; auto; apply in_rev; auto). destruct (H _ J0) as (Pl & Oe & Off & Re).
    destruct e0 as [o d' cs' ts a]. destruct Pl as [-> ->]. simpl in *. rewrite app_nil_r. split; auto.
    destruct Oe as [Nt Oe]. split; auto. apply NoDup_app_iff'. split; auto. split; auto.
    intros q Jc Jt. apply (Off q); auto. }
  exists order', val', (modified_events d cs es), rs. repeat (split; auto).
  intro psi. pose proof (modified_meaning A ang d cs es) as MM.
  specialize (MM (fun e J => conj (proj1 (H e J)) (conj (proj1 (proj2 (H e J))) (proj1 (proj2 (proj2 (H e J)))))) psi).
  destruct d; rewrite !R; auto.
Qed.

Lemma C69_order_free_pf : forall (A : Type) (cl : nat -> list A -> nat -> A) (ang : A -> R) g order order' ins outs outs' val val' es es',
  wf g -> topological g order -> topological g order' ->
  (forall k l i o, In (k, Copied l i o) (g_nodes g) -> forall b, In b (i ++ o) -> b = false) ->
  (forall k o d n, In (k, Gate (Tk o) d n) (g_nodes g) -> is_quantum o = true) ->
  NoDup (names ins) ->
  carries cl g ins outs val -> trace g val order es ->
  carries cl g ins outs' val' -> trace g val' order' es' ->
  forall psi, events_sem ang es psi = events_sem ang es' psi.
Proof.
  intros A cl ang g order order' ins outs outs' val val' es es' W Tp Tp' Cls Un Ni Ca T Ca' T' psi.
  destruct (C67_any_order_pf A cl g order order' ins outs val es W Tp Tp' Cls Ca Ni T) as (es1 & T1 & Sw).
  assert (E : es1 = es').
  { apply (same_trace g order' W Tp' A cl ins outs outs' val val' Ca Ca' order'); auto. }
  subst es1. apply (swaps_sem A ang es es' Sw).
  assert (Ev1 : forall l es, trace g val l es -> forall e, In e es -> exists k, is_event g val k e).
  { clear. intros l es T. induction T; intros e' J; [destruct J| |auto]. destruct J as [<-|J]; eauto. }
  intros e J. destruct (Ev1 _ _ T _ J) as (k & Ie). destruct e as [o d' cs' ts a].
  destruct (event_names g order W Tp A cl ins outs val Ca Cls Ni k o d' cs' ts a Ie) as [Nq Iq].
  destruct Ie as (No & L & _). simpl. split; auto. destruct o as [t|].
  - split; auto. apply (Un _ _ _ _ No).
  - simpl in L. destruct ts; auto. discriminate.
Qed.

Lemma C70_other_operations_refuted_pf : forall d n l, exists g g',
  wf g /\ topological g [0] /\ g_nodes g = [(0, Copied l [true] [true])] /\
  modify_region d n [0] g = Some g' /\ g_nodes g' = g_nodes g /\
  (forall i, i < n -> In ((Inp, i), (Outp, i)) (g_edges g')) /\
  In ((Inp, n), (Nd 0, 0)) (g_edges g') /\ In ((Nd 0, 0), (Outp, n)) (g_edges g').
Proof.
  intros d n l.
  set (g := {| g_ins := [true]; g_outs := [true]; g_nodes := [(0, Copied l [true] [true])];
               g_edges := [((Inp, 0), (Nd 0, 0)); ((Nd 0, 0), (Outp, 0))] |}).
  assert (W : wf g).
  { constructor; simpl.
    - repeat constructor; simpl; tauto.
    - intros s t [E|[E|[]]]; injection E as <- <-; exists true; unfold source, target; simpl; split; auto;
        exists (Copied l [true] [true]); simpl; auto.
    - repeat constructor; simpl; intuition discriminate.
    - intros [[| |k] i] b T; unfold target in T; simpl in T.
      + destruct T.
      + destruct i as [|[|]]; try discriminate. exists (Nd 0, 0). auto.
      + destruct T as (o & [E|[]] & T). injection E as <- <-. simpl in T. destruct i as [|[|]]; try discriminate.
        exists (Inp, 0). auto.
    - intros [[| |k] i] T; unfold source in T; simpl in T.
      + destruct i as [|[|]]; try discriminate. exists (Nd 0, 0). auto.
      + destruct T.
      + destruct T as (o & [E|[]] & T). injection E as <- <-. simpl in T. destruct i as [|[|]]; try discriminate.
        exists (Outp, 0). auto.
    - intros s t t' _ [E|[E|[]]] [E'|[E'|[]]]; congruence. }
  destruct d.
  - eexists g, _. split; auto. split.
    { split; [simpl; auto|]. intros a i b j [E|[E|[]]]; discriminate. }
    split; auto. split.
    + unfold modify_region. simpl. reflexivity.
    + simpl. split; auto. split; [|split].
      * intros i L. apply in_or_app. left. rewrite map_length, seq_length.
        apply in_map_iff. exists (i, (Inp, i)). split; auto.
        clear - L. assert (H : forall a n i, a <= i < a + n -> In (i, (Inp, i)) (combine (seq a n) (map (fun j => (Inp, j)) (seq a n)))).
        { intros a m. revert a. induction m as [|m IH]; intros a j Hj; [lia|]. simpl.
          destruct (Nat.eq_dec j a) as [->|]; [left; auto|right]. apply IH. lia. }
        apply H. lia.
      * apply in_or_app. right. simpl. rewrite ?Nat.add_0_r. auto.
      * apply in_or_app. right. simpl. rewrite ?Nat.add_0_r. auto.
  - eexists g, _. split; auto. split.
    { split; [simpl; auto|]. intros a i b j [E|[E|[]]]; discriminate. }
    split; auto. split.
    + unfold modify_region. simpl. reflexivity.
    + simpl. split; auto. split; [|split].
      * intros i L. apply in_or_app. left. rewrite map_length, seq_length.
        apply in_map_iff. exists (i, (Inp, i)). split; auto.
        clear - L. assert (H : forall a n i, a <= i < a + n -> In (i, (Inp, i)) (combine (seq a n) (map (fun j => (Inp, j)) (seq a n)))).
        { intros a m. revert a. induction m as [|m IH]; intros a j Hj; [lia|]. simpl.
          destruct (Nat.eq_dec j a) as [->|]; [left; auto|right]. apply IH. lia. }
        apply H. lia.
      * apply in_or_app. right. simpl. rewrite ?Nat.add_0_r. auto.
      * apply in_or_app. right. simpl. rewrite ?Nat.add_0_r. auto.
Qed.

