(** Proofs of the properties of expressions for copyable values, C79 to C82. *)
From Coq Require Import List Bool Arith Lia Permutation Relations.
From Verif Require Import ScopeModel ScopeSpec ReachProofs ScopeCases ExprModel ExprSpec ExprProofs ExprProofs2 ExprProofs3 ExprCases.
Import ListNotations.

Lemma C79_contents_pf :
  forall g scope st callee choose allowed excluded fuel out p ins outs calls nodes,
    setting g scope st choose ->
    try_new g scope st callee choose allowed excluded fuel (out, p) = MOk (Composite ins outs calls nodes) ->
    (NoDup nodes /\ in_order g nodes /\ forall n, In n nodes <-> needed g scope allowed excluded out n) /\
    (NoDup (concat ins) /\ Forall (fun l => length l = 1) ins /\ forall q, In q (concat ins) <-> enters g scope allowed excluded out q) /\
    (NoDup outs /\ forall q, In q outs <-> leaves g scope allowed excluded out q) /\
    (NoDup (concat calls) /\ (forall n, In n (concat calls) <-> needed g scope allowed excluded out n /\ callee n <> None) /\
     (forall l, In l calls -> l <> []) /\
     forall i j l k n m, nth_error calls i = Some l -> nth_error calls j = Some k -> In n l -> In m k -> (callee n = callee m <-> i = j)).
Proof.
  intros g scope st callee choose allowed excluded fuel out p ins outs calls nodes SE H.
  destruct (new_ok _ _ _ _ _ _ _ SE _ _ _ _ _ _ H) as (A & a & gs & T & I & Q & R & S & G & -> & -> & ->). simpl in *.
  destruct SE as [V I0 D C N].
  pose proof (all_needed g scope st callee allowed excluded V I0 out a I A Q) as AN.
  split; [split; [apply (i_nodup _ _ _ _ _ _ _ _ I)|split; [eapply ordered; eauto|exact AN]]|].
  split; [|split].
  - destruct (sort_inputs_ok _ _ _ _ _ S) as (P & L & _). split; [|split; [exact L|]].
    + eapply Permutation_NoDup; [symmetry; exact P|apply (i_inputs_nodup _ _ _ _ _ _ _ _ I)].
    + intros [m i]. transitivity (In (m, i) (a_inputs a)); [split; apply Permutation_in; [|symmetry]; exact P|].
      rewrite (i_inputs _ _ _ _ _ _ _ _ I). unfold enters. simpl. rewrite AN. reflexivity.
  - split; [apply (i_outputs_nodup _ _ _ _ _ _ _ _ I)|]. intros [m i]. rewrite (i_outputs _ _ _ _ _ _ _ _ I). unfold leaves. simpl. rewrite AN. tauto.
  - destruct (group_ok callee (a_calls a) [] gs) as ((KN & KG) & P); [split; [constructor|intros f l []]|exact G|]. simpl in P.
    split; [eapply Permutation_NoDup; [symmetry; exact P|apply (i_calls_nodup _ _ _ _ _ _ _ _ I)]|]. split; [|split].
    + intros n. rewrite <- AN, <- (i_calls _ _ _ _ _ _ _ _ I). split; apply Permutation_in; [|symmetry]; exact P.
    + intros l J. apply in_map_iff in J as ([f l'] & <- & J). apply (KG _ _ J).
    + intros i j l k n m E1 E2 J1 J2. rewrite nth_error_map in E1, E2.
      destruct (nth_error gs i) as [[f l1]|] eqn:X1; [|discriminate]. destruct (nth_error gs j) as [[h l2]|] eqn:X2; [|discriminate].
      simpl in E1, E2. injection E1 as ->. injection E2 as ->.
      pose proof (nth_error_In _ _ X1) as Y1. pose proof (nth_error_In _ _ X2) as Y2.
      rewrite (proj2 (KG _ _ Y1) n J1), (proj2 (KG _ _ Y2) m J2). split.
      * intros E. injection E as ->. rewrite NoDup_nth_error in KN. apply KN.
        { rewrite map_length. apply nth_error_Some. congruence. }
        rewrite !nth_error_map, X1, X2. reflexivity.
      * intros ->. rewrite X1 in X2. congruence.
Qed.

Lemma C79_total_pf :
  forall g scope st callee choose allowed excluded out p t,
    setting g scope st choose -> has_type g out (Outgoing, p) t -> copyable g t = true ->
    exists bound, forall fuel, bound <= fuel ->
      (~ admissible g scope excluded out -> try_new g scope st callee choose allowed excluded fuel (out, p) = MOk (Wire (out, p))) /\
      (admissible g scope excluded out ->
         try_new g scope st callee choose allowed excluded fuel (out, p) = MNotConvex \/
         exists ins outs calls nodes, try_new g scope st callee choose allowed excluded fuel (out, p) = MOk (Composite ins outs calls nodes)).
Proof.
  intros g scope st callee choose allowed excluded out p t SE T C.
  apply (new_total g scope st callee choose allowed excluded SE (out, p)).
  unfold output_copyable. apply types_iff in T. simpl in *. rewrite T. exact C.
Qed.

Lemma C80_order_partial_pf :
  forall g scope st callee choose allowed excluded fuel out p ins outs calls nodes,
    setting g scope st choose ->
    try_new g scope st callee choose allowed excluded fuel (out, p) = MOk (Composite ins outs calls nodes) ->
    forall i j q q', i < j -> nth_error ins i = Some [q] -> nth_error ins j = Some [q'] ->
      (In q' allowed -> In q allowed) /\
      (In q allowed -> In q' allowed -> before q q' allowed) /\
      (forall n n', ~ In q allowed -> ~ In q' allowed -> from g q n -> from g q' n' -> In n excluded -> In n' excluded ->
         n = n' \/ before n n' excluded).
Proof.
  intros g scope st callee choose allowed excluded fuel out p ins outs calls nodes SE H i j q q' L E1 E2.
  destruct (new_ok _ _ _ _ _ _ _ SE _ _ _ _ _ _ H) as (A & a & gs & T & I & Q & R & S & G & -> & -> & ->). simpl in *.
  destruct (sort_inputs_ok _ _ _ _ _ S) as (P & LL & _ & O).
  assert (ND : NoDup (concat ins)) by (eapply Permutation_NoDup; [symmetry; exact P|apply (i_inputs_nodup _ _ _ _ _ _ _ _ I)]).
  assert (NE : q <> q').
  { intros <-. destruct (before_nth ins i j [q] [q] L E1 E2) as (l1 & l2 & l3 & ->).
    rewrite concat_app in ND. cbn [concat] in ND. rewrite concat_app in ND. cbn [concat] in ND. cbn [app] in ND. apply NoDup_remove_2 in ND.
    apply ND. rewrite !in_app_iff. simpl. auto. }
  assert (KS : forall x, In x (concat ins) -> exists k, key g allowed excluded x = Some k).
  { intros x J. apply (Permutation_in _ P) in J. destruct x as [m s]. apply (i_inputs _ _ _ _ _ _ _ _ I) in J as (_ & n & r & X & _).
    unfold key. destruct (index port_eqb (m, s) allowed); [eauto|]. simpl. rewrite X. destruct (index Nat.eqb n excluded); eauto. }
  assert (IN : forall x l, nth_error ins l = Some [x] -> In x (concat ins)).
  { intros x l X. apply in_concat. exists [x]. split; [eapply nth_error_In; exact X|simpl; auto]. }
  destruct (KS q (IN _ _ E1)) as (k & K). destruct (KS q' (IN _ _ E2)) as (k' & K').
  pose proof (O _ _ _ _ _ _ L E1 E2 K K') as B. apply ltb_not in B.
  pose proof (index_none port_eqb port_eqb_iff) as XN. pose proof (index_some port_eqb port_eqb_iff) as XS.
  unfold key in K, K'. split; [|split].
  - intros J. destruct (index port_eqb q allowed) eqn:Y; [|].
    + eapply nth_error_In. apply (XS _ _ _ Y).
    + exfalso. destruct (index port_eqb q' allowed) eqn:Y'; [|apply XN in Y'; contradiction]. injection K' as <-.
      destruct (source g (fst q) (snd q)) as [[m s]|]; [|discriminate]. destruct (index Nat.eqb m excluded); injection K as <-; simpl in B; lia.
  - intros J J'. destruct (index port_eqb q allowed) as [x|] eqn:Y; [|apply XN in Y; contradiction].
    destruct (index port_eqb q' allowed) as [x'|] eqn:Y'; [|apply XN in Y'; contradiction].
    injection K as <-. injection K' as <-. simpl in B. apply XS in Y. apply XS in Y'.
    assert (x <> x') by (intros <-; congruence). eapply before_nth; [|exact Y|exact Y']. lia.
  - intros n n' J J' (s & F) (s' & F') X X'.
    destruct (index port_eqb q allowed) as [x|] eqn:Y; [exfalso; apply J; eapply nth_error_In; apply (XS _ _ _ Y)|].
    destruct (index port_eqb q' allowed) as [x|] eqn:Y'; [exfalso; apply J'; eapply nth_error_In; apply (XS _ _ _ Y')|].
    rewrite F in K. rewrite F' in K'.
    destruct (index Nat.eqb n excluded) as [z|] eqn:Z; [|apply (index_none Nat.eqb Nat.eqb_eq) in Z; contradiction].
    destruct (index Nat.eqb n' excluded) as [z'|] eqn:Z'; [|apply (index_none Nat.eqb Nat.eqb_eq) in Z'; contradiction].
    injection K as <-. injection K' as <-. simpl in B.
    apply (index_some Nat.eqb Nat.eqb_eq) in Z. apply (index_some Nat.eqb Nat.eqb_eq) in Z'.
    destruct (Nat.eq_dec z z') as [<-|NZ]; [left; congruence|right]. eapply before_nth; [|exact Z|exact Z']. lia.
Qed.

Lemma C80_stable_pf :
  forall g allowed excluded l ins, sort_inputs g allowed excluded l = Some ins ->
    Permutation (concat ins) l /\
    forall l1 q l2 q' l3, l = l1 ++ q :: l2 ++ q' :: l3 -> NoDup l ->
      (elsewhere g allowed excluded q /\ elsewhere g allowed excluded q' \/
       exists n, ~ In q allowed /\ ~ In q' allowed /\ from g q n /\ from g q' n) ->
      before q q' (concat ins).
Proof.
  intros g allowed excluded l ins H. destruct (sort_inputs_ok _ _ _ _ _ H) as (P & _ & F & _). split; [exact P|].
  intros l1 q l2 q' l3 E ND X.
  assert (XN := fun x => index_none port_eqb port_eqb_iff x allowed).
  assert (K : exists k, key g allowed excluded q = Some k /\ key g allowed excluded q' = Some k).
  { unfold key. destruct X as [((A & n & (s & B) & C) & (A' & n' & (s' & B') & C'))|(n & A & A' & (s & B) & (s' & B'))];
      rewrite (proj2 (XN q) A), (proj2 (XN q') A'), B, B'.
    - rewrite (proj2 (index_none Nat.eqb Nat.eqb_eq n excluded) C), (proj2 (index_none Nat.eqb Nat.eqb_eq n' excluded) C'). eauto.
    - destruct (index Nat.eqb n excluded); eauto. }
  destruct K as (k & K & K'). specialize (F k).
  assert (S1 : same_key g allowed excluded k q = true) by (unfold same_key; rewrite K; apply port_eqb_iff; reflexivity).
  assert (S2 : same_key g allowed excluded k q' = true) by (unfold same_key; rewrite K'; apply port_eqb_iff; reflexivity).
  rewrite E in F. rewrite filter_app in F. cbn [filter] in F. rewrite S1, filter_app in F. cbn [filter] in F. rewrite S2 in F.
  (* the filtered list has [q] before [q'], and so has the list *)
  revert F. generalize (concat ins) as r. generalize (filter (same_key g allowed excluded k) l1) as f1. generalize (filter (same_key g allowed excluded k) l2) as f2. generalize (filter (same_key g allowed excluded k) l3) as f3.
  intros f3 f2 f1 r. revert f1. induction r as [|x r IH]; intros f1 F; [destruct f1; discriminate|].
  simpl in F. destruct (same_key g allowed excluded k x) eqn:SX.
  - destruct f1 as [|y f1]; simpl in F; inversion F; subst.
    + assert (J : In q' (filter (same_key g allowed excluded k) r)) by (match goal with HH : filter _ r = _ |- _ => rewrite HH end; rewrite in_app_iff; simpl; auto).
      apply filter_In in J as (J & _). apply in_split in J as (r1 & r2 & ->). exists [], r1, r2. reflexivity.
    + match goal with HH : filter _ r = _ |- _ => destruct (IH f1 HH) as (r1 & r2 & r3 & ->) end. exists (y :: r1), r2, r3. reflexivity.
  - destruct (IH f1 F) as (r1 & r2 & r3 & ->). exists (x :: r1), r2, r3. reflexivity.
Qed.

Lemma C80_found_pf :
  forall g scope st callee choose allowed excluded fuel out p ins outs calls nodes,
    setting g scope st choose ->
    try_new g scope st callee choose allowed excluded fuel (out, p) = MOk (Composite ins outs calls nodes) ->
    forall q q', before q q' (concat ins) ->
      (elsewhere g allowed excluded q /\ elsewhere g allowed excluded q' \/
       exists n, ~ In q allowed /\ ~ In q' allowed /\ from g q n /\ from g q' n) ->
      (fst q = fst q' /\ snd q < snd q') \/ before (fst q') (fst q) nodes.
Proof.
  intros g scope st callee choose allowed excluded fuel out p ins outs calls nodes SE H q q' B X.
  destruct (C79_contents_pf _ _ _ _ _ _ _ _ _ _ _ _ _ _ SE H) as (_ & (ND & _ & _) & _).
  destruct (new_ok _ _ _ _ _ _ _ SE _ _ _ _ _ _ H) as (A & a & gs & T & I & Q & R & S & G & -> & -> & ->). simpl in *.
  destruct (C80_stable_pf _ _ _ _ _ S) as (P & ST).
  pose proof (traverse_found _ _ _ _ _ _ _ _ _ _ T (start_found out)) as (_ & F).
  assert (NA : NoDup (a_inputs a)) by apply (i_inputs_nodup _ _ _ _ _ _ _ _ I).
  destruct (before_in _ _ _ B) as (J & J'). apply (Permutation_in _ P) in J. apply (Permutation_in _ P) in J'.
  destruct (either_way (a_inputs a) q q' J J') as [Y|Y].
  - intros <-. apply (one_way _ _ _ ND B B).
  - apply F. exact Y.
  - exfalso. apply (one_way _ _ _ ND B). destruct Y as (l1 & l2 & l3 & Y). apply (ST _ _ _ _ _ Y NA).
    destruct X as [(X1 & X2)|(n & X1 & X2 & X3 & X4)]; [left; auto|right; exists n; auto].
Qed.

Lemma C80_order_refuted_pf :
  exists g scope st callee choose allowed excluded fuel out p ins outs calls nodes,
    setting g scope st choose /\ NoDup excluded /\
    try_new g scope st callee choose allowed excluded fuel (out, p) = MOk (Composite ins outs calls nodes) /\
    exists q q' n, ins = [[q]; [q']] /\ elsewhere g allowed excluded q /\ ~ In q' allowed /\ from g q' n /\ In n excluded.
Proof.
  exists (make sigs1 edges1 []), [1; 2], (places sigs1 edges1 [1; 2] entries1), (fun _ => None), (pick (places sigs1 edges1 [1; 2] entries1)), [], [1], 20, 2, 0.
  eexists. eexists. eexists. eexists.
  split; [apply case_setting; [repeat constructor; simpl; intuition discriminate|vm_compute; reflexivity]|].
  split; [repeat constructor; intros []|]. split; [vm_compute; reflexivity|].
  exists (2, 1), (2, 0), 1. split; [reflexivity|]. split; [|split; [intros []|split; [exists 0; reflexivity|left; reflexivity]]].
  split; [intros []|]. exists 0. split; [exists 1; reflexivity|]. intros [X|[]]. discriminate X.
Qed.

Lemma C81_convex_partial_pf :
  forall g scope st callee choose allowed excluded fuel out p ins outs calls nodes,
    setting g scope st choose -> values_only g ->
    try_new g scope st callee choose allowed excluded fuel (out, p) = MOk (Composite ins outs calls nodes) ->
    convex g scope (fun n => In n nodes) /\ forall n, In n nodes -> path g scope n out.
Proof.
  intros g scope st callee choose allowed excluded fuel out p ins outs calls nodes SE VO H.
  destruct (C79_contents_pf _ _ _ _ _ _ _ _ _ _ _ _ _ _ SE H) as ((_ & _ & HN) & _ & _).
  destruct (new_ok _ _ _ _ _ _ _ SE _ _ _ _ _ _ H) as (A & a & gs & T & I & Q & R & S & G & -> & -> & ->). simpl in *.
  destruct SE as [V I0 D C N].
  assert (AN := all_needed g scope st callee allowed excluded V I0 out a I A Q).
  assert (CV : convex g scope (needed g scope allowed excluded out)).
  { refine (convex_ok g scope st callee choose allowed excluded V I0 D C N out fuel (a_inputs a) (a_outputs a) VO _ _ A R).
    - intros [m i]. rewrite (i_inputs _ _ _ _ _ _ _ _ I). unfold enters. simpl. rewrite AN. reflexivity.
    - intros [m i]. rewrite (i_outputs _ _ _ _ _ _ _ _ I). unfold leaves. simpl. rewrite AN. tauto. }
  split.
  - intros x y z X P1 P2 Z. apply HN. eapply CV; [apply HN; exact X|exact P1|exact P2|apply HN; exact Z].
  - intros n J. apply HN in J. induction J as [|m i n r M IH SR NA AD]; [constructor|].
    econstructor; [|exact IH]. split; [apply AD|]. split; [|exists r, i; now apply (links _ V)].
    apply (needed_adm g scope allowed excluded out m A M).
Qed.

Lemma C81_complete_refuted_pf :
  exists g scope st callee choose fuel out p t,
    setting g scope st choose /\ values_only g /\ has_type g out (Outgoing, p) t /\ copyable g t = true /\
    convex g scope (needed g scope [] [] out) /\
    forall more, try_new g scope st callee choose [] [] (fuel + more) (out, p) = MNotConvex.
Proof.
  pose (g := make sigs1 edges1 []). pose (st := places sigs1 edges1 [1; 2] entries1).
  exists g, [1; 2], st, (fun _ => None), (pick st), 20, 2, 0, 1.
  assert (SE : setting g [1; 2] st (pick st)) by (apply case_setting; [repeat constructor; simpl; intuition discriminate|vm_compute; reflexivity]).
  split; [exact SE|]. split; [apply case_values_only|]. split; [exists [1; 1], [1]; split; [reflexivity|vm_compute; reflexivity]|]. split; [reflexivity|].
  assert (TN : try_new g [1; 2] st (fun _ => None) (pick st) [] [] 20 (2, 0) = MNotConvex) by (vm_compute; reflexivity).
  split.
  - assert (AD : forall n, n = 1 \/ n = 2 -> admissible g [1; 2] [] n) by (intros n J; apply adm_iff; destruct J as [->| ->]; vm_compute; reflexivity).
    assert (N2 : needed g [1; 2] [] [] 2 1) by (eapply needed_source with (m := 2) (i := 0) (p := 0); [constructor|reflexivity|intros []|apply AD; auto]).
    intros a b c Sa P _ _.
    assert (J : In b [1; 2] \/ b = a).
    { clear - P. induction P as [|a b c (_ & B & _) P IH]; auto. destruct IH as [J| ->]; auto. }
    destruct J as [[<-|[<-|[]]]| ->]; [exact N2|apply needed_out|exact Sa].
  - intros more. destruct (new_total g [1; 2] st (fun _ => None) (pick st) [] [] SE (2, 0) eq_refl) as (bound & B).
    unfold try_new in TN |- *. change (fst (2, 0)) with 2 in *.
    destruct (output_copyable g (2, 0)); [|discriminate TN]. cbn [negb] in TN |- *.
    destruct (admissible_node g [1; 2] [] 2); [|discriminate TN]. cbn [negb] in TN |- *.
    destruct (position st 2); [|discriminate TN].
    destruct (traverse g [1; 2] st (fun _ => None) (pick st) [] [] 20 (start 2)) as [a|] eqn:T; [|discriminate TN].
    rewrite (traverse_fuel _ _ _ _ _ _ _ _ _ _ T (20 + more)) by lia.
    destruct (any_reachable_from g 20 st (a_outputs a) (a_inputs a)) as [[|]|] eqn:R; [|destruct (sort_inputs g [] [] (a_inputs a)); destruct (group_calls (fun _ => None) (a_calls a) []); discriminate TN|discriminate TN].
    assert (R2 : any_reachable_from g (20 + more) st (a_outputs a) (a_inputs a) = Some true).
    { unfold any_reachable_from in *. destruct (max_position st (map fst (a_inputs a))); [|discriminate R].
      clear - R. revert R. generalize 20 as f. generalize (@nil nat) as v. generalize (map fst (flat_map (fun '(n, p) => targets g n p) (a_outputs a))) as q.
      intros q v f. revert q v. induction f as [|f IH]; intros q v R; [discriminate R|]. cbn [reach_loop plus] in *.
      destruct q as [|m q]; [exact R|].
      match goal with |- (if ?c then _ else _) = _ => destruct c end; [apply IH; exact R|].
      destruct (position st m); try exact R; (destruct (existsb (Nat.eqb m) (map fst (a_inputs a))); [exact R|]; apply IH; exact R). }
    rewrite R2. reflexivity.
Qed.

Lemma C81_default_refuted_pf :
  exists g scope st callee choose out p t,
    setting g scope st choose /\ values_only g /\ has_type g out (Outgoing, p) t /\ copyable g t = true /\ admissible g scope [] out /\
    ~ convex g scope (needed g scope [] [] out) /\
    forall fuel ins outs calls nodes, try_new g scope st callee choose [] [] fuel (out, p) <> MOk (Composite ins outs calls nodes).
Proof.
  pose (g := make sigs2 edges2 []). pose (st := places sigs2 edges2 [1; 2; 3] entries2).
  exists g, [1; 2; 3], st, (fun _ => None), (pick st), 3, 0, 1.
  assert (SE : setting g [1; 2; 3] st (pick st)) by (apply case_setting; [repeat constructor; simpl; intuition discriminate|vm_compute; reflexivity]).
  split; [exact SE|]. split; [apply case_values_only|]. split; [exists [1; 1], [1]; split; [reflexivity|vm_compute; reflexivity]|]. split; [reflexivity|].
  split; [apply adm_iff; vm_compute; reflexivity|].
  assert (NC : ~ convex g [1; 2; 3] (needed g [1; 2; 3] [] [] 3)).
  { intros CV.
    assert (N1 : needed g [1; 2; 3] [] [] 3 1) by (eapply needed_source with (m := 3) (i := 0) (p := 0); [constructor|reflexivity|intros []|apply adm_iff; vm_compute; reflexivity]).
    assert (P1 : path g [1; 2; 3] 1 2) by (econstructor; [|constructor]; split; [simpl; auto|split; [simpl; auto|exists 0, 1; vm_compute; auto]]).
    assert (P2 : path g [1; 2; 3] 2 3) by (econstructor; [|constructor]; split; [simpl; auto|split; [simpl; auto|exists 1, 1; vm_compute; auto]]).
    pose proof (CV 1 2 3 N1 P1 P2 (needed_out _ _ _ _ 3)) as X.
    assert (X2 : admissible g [1; 2; 3] [] 2) by (apply (needed_adm g [1; 2; 3] [] [] 3 2); [apply adm_iff; vm_compute; reflexivity|exact X]).
    apply adm_iff in X2. vm_compute in X2. discriminate X2. }
  split; [exact NC|]. intros fuel ins outs calls nodes H. apply NC.
  destruct (C81_convex_partial_pf _ _ _ _ _ _ _ _ _ _ _ _ _ _ SE (case_values_only _ _) H) as (CV & _).
  destruct (C79_contents_pf _ _ _ _ _ _ _ _ _ _ _ _ _ _ SE H) as ((_ & _ & HN) & _).
  intros a b c A P1 P2 Cc. apply HN. eapply CV; [apply HN; exact A|exact P1|exact P2|apply HN; exact Cc].
Qed.

Lemma C82_value_pf :
  forall g scope st callee choose allowed excluded fuel out p ins outs calls nodes,
    setting g scope st choose ->
    try_new g scope st callee choose allowed excluded fuel (out, p) = MOk (Composite ins outs calls nodes) ->
    forall (V : Type) (op : nat -> list V -> list V) (val : nat * nat -> V) (given : list ((nat * nat) * V)),
      run_of g scope excluded V op val ->
      (forall q, In q (map fst given) <-> In q (concat ins)) ->
      (forall q v w, In (q, v) given -> source g (fst q) (snd q) = Some w -> v = val w) ->
      exists env, evaluate g V op given nodes [] = Some env /\
        (forall n r t, In n nodes -> has_type g n (Outgoing, r) t -> get env (n, r) = Some (val (n, r))) /\
        (forall q, In q outs -> get env q = Some (val q)) /\
        (forall t, has_type g out (Outgoing, p) t -> get env (out, p) = Some (val (out, p))).
Proof.
  intros g scope st callee choose allowed excluded fuel out p ins outs calls nodes SE H V op val given R G1 G2.
  destruct (C79_contents_pf _ _ _ _ _ _ _ _ _ _ _ _ _ _ SE H) as ((ND & IO & HN) & (_ & _ & HI) & (_ & HO) & _).
  destruct (new_ok _ _ _ _ _ _ _ SE _ _ _ _ _ _ H) as (A & _). simpl in A. destruct SE as [VG I0 D C N].
  assert (GN : forall q, get given q <> None <-> In q (concat ins)).
  { intros q. rewrite <- G1. clear. induction given as [|[w v] l IH]; simpl; [tauto|].
    destruct (Nat.eqb (fst w) (fst q) && Nat.eqb (snd w) (snd q)) eqn:E.
    - apply andb_true_iff in E as [E1 E2]. apply Nat.eqb_eq in E1, E2. destruct w, q; simpl in *; subst. split; [auto|discriminate].
    - rewrite IH. split; [auto|]. intros [<-|J]; [|exact J]. rewrite !Nat.eqb_refl in E. discriminate E. }
  assert (GI : forall q v, get given q = Some v -> In (q, v) given).
  { intros q v. clear. induction given as [|[w x] l IH]; simpl; [discriminate|].
    destruct (Nat.eqb (fst w) (fst q) && Nat.eqb (snd w) (snd q)) eqn:E; [|auto].
    intros X. injection X as <-. apply andb_true_iff in E as [E1 E2]. apply Nat.eqb_eq in E1, E2. destruct w, q; simpl in *; subst. auto. }
  assert (LT : forall n r t, has_type g n (Outgoing, r) t -> r < length (types g n Outgoing)).
  { intros n r t T. apply types_iff in T. simpl in T. apply nth_error_Some. congruence. }
  destruct (evaluate_ok g scope excluded VG V op val R given nodes [] []) as (env & E & HE).
  - intros n i w _ X S. destruct (get given (n, i)) as [v|] eqn:Y; [|congruence]. f_equal. apply (G2 (n, i) v w); auto.
  - intros n i m r J X S. simpl. apply HN. eapply needed_source; [apply HN; exact J|exact S| |].
    + intros K. apply (proj2 (GN (n, i))); [|exact X]. apply HI. split; [apply HN; exact J|]. exists m, r. split; [exact S|left; exact K].
    + destruct (adm_dec g scope excluded m) as [Y|Y]; [exact Y|exfalso]. apply (proj2 (GN (n, i))); [|exact X].
      apply HI. split; [apply HN; exact J|]. exists m, r. split; [exact S|right; exact Y].
  - intros n J. apply (needed_adm g scope allowed excluded out n A). apply HN. exact J.
  - exact IO.
  - exact ND.
  - intros n i J L. destruct (nth_error (types g n Incoming) i) as [t|] eqn:T; [|apply nth_error_None in T; lia].
    assert (HT : has_type g n (Incoming, i) t) by (apply types_iff; exact T).
    destruct (connected _ VG n i t HT) as (m & r & S & HT2). exists m, r. split; [exact S|]. eapply LT; eassumption.
  - intros n r [].
  - simpl in HE. exists env. split; [exact E|]. split; [|split].
    + intros n r t J T. apply HE; [exact J|eapply LT; exact T].
    + intros [n r] J. apply HO in J as (J & m & i & T & _). simpl in *. apply HE; [apply HN; exact J|].
      apply (links _ VG) in T. destruct (targeted _ VG _ _ _ _ T) as (t & HT).
      destruct (connected _ VG m i t HT) as (m' & r' & S & HT2). rewrite T in S. injection S as <- <-. eapply LT; exact HT2.
    + intros t T. apply HE; [apply HN; constructor|eapply LT; exact T].
Qed.

Lemma C82_output_partial_pf :
  forall g scope st callee choose allowed excluded fuel out p e r,
    setting g scope st choose ->
    try_new g scope st callee choose allowed excluded fuel (out, p) = MOk e ->
    targets g out r <> [] -> (forall r', r' < r -> targets g out r' = []) -> (p = r \/ admissible g scope excluded out) ->
    output e = Some (out, r).
Proof.
  intros g scope st callee choose allowed excluded fuel out p e r SE H T F PR.
  destruct e as [w|ins outs calls nodes].
  - unfold try_new in H. destruct (negb (output_copyable g (out, p))); [discriminate H|]. simpl in H.
    destruct (admissible_node g scope excluded out) eqn:A; simpl in H.
    + destruct (position st out); [|discriminate H]. destruct (traverse _ _ _ _ _ _ _ _ _); [|discriminate H].
      destruct (any_reachable_from _ _ _ _ _) as [[|]|]; try discriminate H. destruct (sort_inputs _ _ _ _); [|discriminate H]. destruct (group_calls _ _ _); discriminate H.
    + injection H as <-. simpl. destruct PR as [-> |X]; [reflexivity|]. apply adm_iff in X. congruence.
  - destruct (new_ok _ _ _ _ _ _ _ SE _ _ _ _ _ _ H) as (A & a & gs & TR & I & Q & R & S & G & -> & -> & ->). simpl in *.
    destruct SE as [V I0 D C N]. eapply first_output; try eassumption.
    destruct (targets g out r) as [|[m i] l] eqn:X; [congruence|].
    assert (SR : source g m i = Some (out, r)) by (apply (links _ V); rewrite X; left; reflexivity).
    destruct (targeted _ V _ _ _ _ SR) as (t & HT). destruct (connected _ V m i t HT) as (m' & r' & S' & HT2). rewrite SR in S'. injection S' as <- <-.
    apply types_iff in HT2. simpl in HT2. apply nth_error_Some. congruence.
Qed.

Lemma C82_output_refuted_pf :
  exists g scope st callee choose,
    setting g scope st choose /\ values_only g /\
    (exists out p q e, p <> q /\ targets g out p <> [] /\
       try_new g scope st callee choose [] [] 20 (out, p) = MOk e /\ output e = Some (out, q)) /\
    (exists out p t e, has_type g out (Outgoing, p) t /\ copyable g t = true /\
       try_new g scope st callee choose [] [] 20 (out, p) = MOk e /\ output e = None).
Proof.
  pose (g := make sigs3 edges3 []). pose (st := places sigs3 edges3 [1; 2] entries3).
  exists g, [1; 2], st, (fun _ => None), (pick st).
  split; [apply case_setting; [repeat constructor; simpl; intuition discriminate|vm_compute; reflexivity]|]. split; [apply case_values_only|]. split.
  - exists 1, 1, 0. eexists. split; [discriminate|]. split; [vm_compute; discriminate|]. split; vm_compute; reflexivity.
  - exists 2, 0, 1. eexists. split; [exists [1], [1]; split; [reflexivity|vm_compute; reflexivity]|]. split; [reflexivity|]. split; vm_compute; reflexivity.
Qed.

