(** Proofs of the properties of resource tracking and of intervals, C42, C43 and C49. *)
From Coq Require Import List Bool Arith Lia Relations.
From Verif Require Import ScopeModel ScopeSpec ScopeProofs ScopeCases ReachProofs IntervalModel IntervalSpec IntervalProofs.
Import ListNotations.

Lemma C43_pf :
  forall g nodes keeps incoming order,
    valid g -> straight_only g keeps -> topological g nodes order -> entries g nodes incoming ->
    exists st, compute_circuit_units g nodes [default_flow g] incoming order = Some st /\ tracked g nodes keeps st /\ increasing g nodes st.
Proof.
  intros g nodes keeps incoming order Hv Hk Ho He. apply compute_spec; auto.
  - apply default_sensible; exact Hk.
  - intros f [<-|[]]. apply default_respects; exact Hk.
  - apply default_supported.
Qed.

Lemma C43_flows_pf :
  forall g nodes keeps flows incoming order,
    valid g -> sensible g keeps -> topological g nodes order -> entries g nodes incoming ->
    (forall f, In f flows -> respects g keeps f) -> supported g nodes flows ->
    exists st, compute_circuit_units g nodes flows incoming order = Some st /\ tracked g nodes keeps st /\ increasing g nodes st.
Proof.
  intros g nodes keeps flows incoming order Hv Hs Ho He Hf Hd. apply compute_spec; auto.
Qed.

Lemma C42_new_pf :
  forall g nodes keeps st, valid g -> sensible g keeps -> tracked g nodes keeps st -> increasing g nodes st ->
  forall r a b,
    (forall i, try_new g st r a b = Ok i -> exists l, covers g nodes st i r l /\ hd_error l = Some a /\ exists l', l = l' ++ [b]) /\
    (forall l l', run g nodes st r l -> hd_error l = Some a -> l = l' ++ [b] -> exists i, try_new g st r a b = Ok i /\ covers g nodes st i r l) /\
    try_new g st r a b <> Err Panic.
Proof.
  intros g nodes keeps st Hv Hs Ht Hi r a b. split; [|split].
  - intros i H. destruct (new_ok g nodes keeps st Hv Hs Ht Hi r a b i H) as (l & C & A & B). exists l. split; [exact C|]. destruct C as (_ & X & Y & _). rewrite A in X. rewrite B in Y. auto.
  - intros l l' R X Y. apply (new_complete g nodes keeps st Hv Hs Ht Hi r a b l R X). exists l'. exact Y.
  - unfold try_new. destruct (position st a); [|discriminate]. destruct (position st b); [|discriminate]. destruct (Nat.ltb n0 n); [discriminate|]. destruct (Nat.eqb a b) eqn:E; [destruct (new_singleton g st r a); discriminate|].
    destruct (get_port g st a r Outgoing) as [p|] eqn:P; [|discriminate]. destruct (get_port g st b r Incoming) as [q|] eqn:Q; [|discriminate].
    destruct (get_port_carries g nodes keeps st Ht Hi _ _ _ _ P) as [_ D]. destruct (get_port_carries g nodes keeps st Ht Hi _ _ _ _ Q) as [_ D']. destruct p as [dp p]. destruct q as [dq q]. simpl in D, D'. subst dp dq. unfold new_span. cbn [fst snd]. rewrite E. discriminate.
Qed.

Lemma C42_extend_partial_pf :
  forall g nodes keeps st, valid g -> sensible g keeps -> tracked g nodes keeps st -> increasing g nodes st ->
  forall i r l n, covers g nodes st i r l -> on_path g nodes st r n ->
    (exists i' l' d, try_extend g st i n = Ok (i', d) /\ extends g nodes st r l n l' d /\ covers g nodes st i' r l') \/
    (exists e, try_extend g st i n = Err e /\ e <> Panic /\ forall l' d, ~ extends g nodes st r l n l' d).
Proof.
  intros g nodes keeps st Hv Hs Ht Hi. apply (extend_exact g nodes keeps st Hv Hs Ht Hi).
Qed.

Lemma C42_history_pf :
  forall g nodes keeps st, valid g -> sensible g keeps -> tracked g nodes keeps st -> increasing g nodes st ->
  forall ns i r l, covers g nodes st i r l ->
    exists l', covers g nodes st (fold_left (fun i n => match try_extend g st i n with Ok (i', _) => i' | Err _ => i end) ns i) r l' /\ incl l l' /\
      forall n, In n l' -> In n l \/ In n ns.
Proof.
  intros g nodes keeps st Hv Hs Ht Hi. induction ns as [|n ns IH]; intros i r l C; cbn [fold_left]; [exists l; split; [exact C|]; split; [intros m M; exact M|auto]|].
  assert (Z : exists l1, covers g nodes st (match try_extend g st i n with Ok (i', _) => i' | Err _ => i end) r l1 /\ incl l l1 /\ forall m, In m l1 -> In m l \/ n = m).
  { destruct (extend_cases g nodes keeps st Hv Hs Ht Hi i r l n C) as [(e & E & _)|[(l' & d & X)|(E & _)]].
    - rewrite E. exists l. split; [exact C|]. split; [intros m M; exact M|auto].
    - destruct (extend_complete g nodes keeps st Hv Hs Ht Hi i r l n l' d C X) as (i' & E & C'). rewrite E. exists l'. split; [exact C'|]. destruct X as [J|a l0 E0 N|a l0 E0 N].
      + split; [intros m M; exact M|auto].
      + split; [intros m M; right; exact M|]. intros m [M|M]; auto.
      + split; [intros m M; apply in_or_app; left; exact M|]. intros m M. apply in_app_or in M. destruct M as [M|[M|[]]]; auto.
    - rewrite E. exists l. split; [exact C|]. split; [intros m M; exact M|auto]. }
  destruct Z as (l1 & C1 & S1 & T1). destruct (IH _ r l1 C1) as (l2 & C2 & S2 & T2). exists l2. split; [exact C2|]. split; [intros m M; apply S2, S1, M|]. intros m M. destruct (T2 m M) as [X|X]; [destruct (T1 m X) as [Y|Y]; [auto|right; left; exact Y]|right; right; exact X].
Qed.

Lemma C42_total_pf :
  forall g nodes keeps st, valid g -> sensible g keeps -> tracked g nodes keeps st -> increasing g nodes st ->
  forall i r l n, covers g nodes st i r l ->
    try_extend g st i n <> Err Panic /\ forall i' d, try_extend g st i n = Ok (i', Some d) -> exists l', extends g nodes st r l n l' (Some d) /\ covers g nodes st i' r l'.
Proof.
  intros g nodes keeps st Hv Hs Ht Hi i r l n C. destruct (extend_cases g nodes keeps st Hv Hs Ht Hi i r l n C) as [(e & E & Ne)|[(l' & d & X)|(E & _)]].
  - rewrite E. split; [congruence|]. intros i' d X. discriminate.
  - destruct (extend_complete g nodes keeps st Hv Hs Ht Hi i r l n l' d C X) as (i' & E & C'). rewrite E. split; [discriminate|]. intros i2 d2 Y. injection Y as <- ->. exists l'. auto.
  - rewrite E. split; [discriminate|]. intros i' d X. discriminate.
Qed.

Lemma C42_nodes_pf :
  forall g nodes keeps st, valid g -> sensible g keeps -> tracked g nodes keeps st -> increasing g nodes st ->
  forall i r l fuel, covers g nodes st i r l -> length nodes <= fuel -> nodes_in_interval g nodes st fuel i = Some l.
Proof.
  intros g nodes keeps st Hv Hs Ht Hi. apply (nodes_ok g nodes keeps st Hv Hs Ht Hi).
Qed.

Lemma C42_extend_refuted_pf :
  exists st i l n, let g := circuit in
    valid g /\ compute_circuit_units g inner [default_flow g] [(1, 0); (2, 1)] [1; 2; 3; 4; 5; 6] = Some st /\
    covers g inner st i 0 l /\ ~ on_path g inner st 0 n /\ try_extend g st i n = Ok (i, None).
Proof.
  assert (Hv : valid circuit) by (apply check_ok; vm_compute; reflexivity).
  assert (Hk := default_keeps_iff circuit).
  assert (Ho : topological circuit inner [1; 2; 3; 4; 5; 6]) by (apply topo_check_ok; [repeat constructor; simpl; intuition discriminate|vm_compute; reflexivity]).
  assert (He : entries circuit inner [(1, 0); (2, 1)]) by (apply entry_check_ok; vm_compute; reflexivity).
  destruct (C43_pf circuit inner _ [(1, 0); (2, 1)] [1; 2; 3; 4; 5; 6] Hv Hk Ho He) as (st & E & T & I). assert (Hs := default_sensible circuit _ Hk).
  assert (D : st = match compute_circuit_units circuit inner [default_flow circuit] [(1, 0); (2, 1)] [1; 2; 3; 4; 5; 6] with Some st => st | None => initial end) by (rewrite E; reflexivity).
  assert (N : exists i, try_new circuit st 0 2 5 = Ok i /\ try_extend circuit st i 3 = Ok (i, None)) by (exists (Span (2, 0) (5, 0)); clear - D; subst st; split; vm_compute; reflexivity). destruct N as (i & N & X).
  destruct (proj1 (C42_new_pf circuit inner _ st Hv Hs T I 0 2 5) i N) as (l & C & _). exists st, i, l, 3. cbn zeta. split; [exact Hv|]. split; [exact E|]. split; [exact C|]. split; [|exact X].
  intros [p (_ & (t & Ty & _) & U)]. apply has_type_iff in Ty. rewrite D in U. destruct p as [[] [|[|[|p]]]]; try (vm_compute in U; discriminate); vm_compute in Ty; discriminate.
Qed.

Lemma C49_sound_pf :
  forall g st starts ends fuel, any_reachable_from g fuel st starts ends = Some true -> some_reachable g st starts ends.
Proof.
  intros g st starts ends fuel H. apply (sound g st starts ends fuel H).
Qed.

Lemma C49_partial_pf :
  forall g nodes st, increasing g nodes st -> values_only g ->
  forall starts ends, exists bound, forall fuel, bound <= fuel ->
    exists b, any_reachable_from g fuel st starts ends = Some b /\ (b = true <-> some_reachable g st starts ends).
Proof.
  intros g nodes st (I1 & _ & I3) V starts ends. destruct (fuel_enough g st nodes I1 starts ends) as [bound B]. exists bound. intros fuel L. specialize (B fuel L). destruct (any_reachable_from g fuel st starts ends) as [b|] eqn:E; [|congruence]. exists b. split; [reflexivity|].
  destruct b; split; [intros _; eapply sound; exact E|reflexivity|discriminate|intros R; exfalso; revert R]. eapply complete; [|exact E].
  intros a c k l J Pa Pc. destruct (V a c J) as (p & i & T). destruct (I3 a p c i (I1 a k Pa) (I1 c l Pc) T) as (k' & l' & Pa' & Pc' & X). rewrite Pa in Pa'. rewrite Pc in Pc'. injection Pa' as <-. injection Pc' as <-. lia.
Qed.

Lemma C49_refuted_pf :
  exists g nodes incoming order st starts ends,
    valid g /\ topological g nodes order /\ entries g nodes incoming /\ compute_circuit_units g nodes [default_flow g] incoming order = Some st /\
    (forall a b, In b (neighbours g a) -> In a order -> In b order -> rank_in a order < rank_in b order) /\
    (forall fuel, 10 <= fuel -> any_reachable_from g fuel st starts ends = Some false) /\ some_reachable g st starts ends.
Proof.
  pose (sg := [([], [0; 0]); ([0], [0]); ([0], [0]); ([0], [0]); ([0], [0]); ([0; 0], [])]). pose (es := [((0, 0), (1, 0)); ((1, 0), (2, 0)); ((2, 0), (3, 0)); ((3, 0), (5, 0)); ((0, 1), (4, 0)); ((4, 0), (5, 1))] : list edge).
  pose (g := make sg es [(3, 4)]). assert (Hv : valid g) by (apply check_ok; vm_compute; reflexivity).
  assert (Ho : topological g [1; 2; 3; 4] [1; 2; 3; 4]) by (apply topo_check_ok; [repeat constructor; simpl; intuition discriminate|vm_compute; reflexivity]).
  assert (He : entries g [1; 2; 3; 4] [(1, 0); (4, 0)]) by (apply entry_check_ok; vm_compute; reflexivity).
  destruct (C43_pf g [1; 2; 3; 4] _ [(1, 0); (4, 0)] [1; 2; 3; 4] Hv (default_keeps_iff g) Ho He) as (st & E & _).
  assert (D : st = match compute_circuit_units g [1; 2; 3; 4] [default_flow g] [(1, 0); (4, 0)] [1; 2; 3; 4] with Some st => st | None => initial end) by (rewrite E; reflexivity).
  exists g, [1; 2; 3; 4], [(1, 0); (4, 0)], [1; 2; 3; 4], st, [(1, 0)], [(4, 0)].
  split; [exact Hv|]. split; [exact Ho|]. split; [exact He|]. split; [exact E|].
  split. { intros a b J [<-|[<-|[<-|[<-|[]]]]] B; vm_compute in J; repeat (destruct J as [<-|J]; [try (vm_compute; lia)|]); try (destruct J); vm_compute in B; repeat (destruct B as [B|B]; [discriminate|]); destruct B. }
  assert (Ps : map (position st) [1; 2; 3; 4] = [Some 0; Some 1; Some 2; Some 0]) by (rewrite D; vm_compute; reflexivity). injection Ps as P1 P2 P3 P4. split.
  - intros fuel L. do 10 (destruct fuel as [|fuel]; [lia|]). unfold any_reachable_from. simpl map. unfold max_position. simpl fold_left. rewrite P4. simpl. rewrite P2. simpl. reflexivity.
  - exists 4, 0. split; [left; reflexivity|]. apply Next with (a := 3); [|vm_compute; auto|unfold inside; congruence]. apply Next with (a := 2); [|vm_compute; auto|unfold inside; congruence].
    eapply First with (n := 1) (p := 0) (i := 0); [left; reflexivity|vm_compute; auto|unfold inside; congruence].
Qed.

