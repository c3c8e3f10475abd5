(** Proofs of the properties of the opaque subgraphs of encoded circuits (C62 to C65). *)
From Coq Require Import List Bool Arith Lia Permutation.
From Verif Require Import OpqModel OpqSpec OpqProofs OpqProofs2.
Import ListNotations.

Lemma C62_order_pf : forall l registers choose id e, topological l -> reads_inputs l -> encode l registers choose id = Some e ->
  Permutation (concat (groups e)) (map n_id l) /\ in_order l (groups e) /\
  (forall n, In (Command n) (e_items e) -> supported l n) /\
  (forall i g, In (OpaqueBarrier i g) (e_items e) -> g <> [] /\ forall u, In u g -> unsupported l u) /\
  (forall u, In u (extra_nodes e) -> unsupported l u).
Proof.
  intros l registers choose id e T R E. assert (H := encode_facts l registers T R choose id). rewrite E in H. destruct H as (s & I & En & Ei & _).
  assert (Eg : concat (groups e) = emitted s ++ extra_nodes e) by (unfold groups, emitted; rewrite concat_app, Ei; cbn; rewrite app_nil_r; reflexivity).
  split; [rewrite Eg; assert (P := i_perm _ _ _ _ _ I); unfold tids in P; rewrite En in P; exact P|]. split.
  - unfold groups. rewrite <- Ei. apply in_order_snoc; [apply I|]. intros v u Hv He. apply (i_extra _ _ _ _ _ I u v Hv He).
  - rewrite <- Ei. split; [intros n Hn; apply (i_items _ _ _ _ _ I _ Hn)|]. split; [intros i g Hg; split; apply (i_items _ _ _ _ _ I _ Hg)|]. intros u Hu. apply (i_uns _ _ _ _ _ I). apply in_or_app. auto.
Qed.

Lemma C62_convex_pf : forall l registers choose id e g, topological l -> reads_inputs l -> encode l registers choose id = Some e ->
  In g (groups e) -> convex l g.
Proof.
  intros l registers choose id e g T R E Hg. destruct (C62_order_pf l registers choose id e T R E) as (P & O & _). eapply in_order_convex; eauto. eapply Permutation_NoDup; [apply Permutation_sym; exact P|apply T].
Qed.

Lemma C62_connected_pf : forall l registers choose id e, topological l -> reads_inputs l -> encode l registers choose id = Some e ->
  (forall i g, In (OpaqueBarrier i g) (e_items e) -> registers g = true /\ forall u v, In u g -> In v g -> linked l g u v) /\
  (forall u, In u (extra_nodes e) -> exists g, In u g /\ registers g = false /\ (forall v, In v g -> unsupported l v) /\ forall v w, In v g -> In w g -> linked l g v w).
Proof.
  intros l registers choose id e T R E. assert (H := encode_facts l registers T R choose id). rewrite E in H. destruct H as (s & I & En & Ei & _ & _ & X). split; auto.
  intros i g Hg. rewrite <- Ei in Hg. destruct (i_items _ _ _ _ _ I _ Hg) as (_ & _ & H1 & _ & H2). auto.
Qed.

Lemma C62_joined_pf : forall l registers choose id e p xv q u, topological l -> reads_inputs l -> encode l registers choose id = Some e ->
  l = p ++ xv :: q -> n_ok xv = false -> unsupported l u -> edge l u (n_id xv) ->
  (exists g, In g (groups e) /\ In u g /\ In (n_id xv) g) \/
  (exists i g x w, In (OpaqueBarrier i g) (e_items e) /\ In u g /\ In x (p ++ [xv]) /\ In w (n_reads x) /\ In w g).
Proof.
  intros l registers choose id e p xv q u T R E El Hok Hu He. assert (H := encode_facts l registers T R choose id). rewrite E in H. destruct H as (s & I & En & Ei & _ & _ & X).
  assert (Hin : In (n_id xv) (tids s ++ emitted s ++ extra_nodes e)) by (eapply Permutation_in; [apply Permutation_sym; apply (i_perm _ _ _ _ _ I)|]; apply in_map; rewrite El; apply in_or_app; right; now left).
  unfold groups. rewrite <- Ei. destruct (i_join _ _ _ _ _ I p xv q u El Hok Hu He Hin) as [(c & d & Hc & _)|[(i & g & H1 & H2 & H3)|[[H1 H2]|(i & g & H1 & H2 & x & w & H3 & H4 & H5)]]].
  - rewrite En in Hc. destruct Hc.
  - left. exists g. split; auto. apply in_or_app. left. apply in_map_iff. exists (OpaqueBarrier i g). auto.
  - left. exists (extra_nodes e). split; auto. apply in_or_app. right. now left.
  - right. exists i, g, x, w. auto 10.
Qed.

Lemma C62_fails_pf : forall l registers choose id, topological l -> reads_inputs l -> encode l registers choose id = None ->
  exists x w g, In x l /\ In w (n_reads x) /\ In w g /\ (forall u, In u g -> unsupported l u) /\ (forall u v, In u g -> In v g -> linked l g u v) /\ registers g = false.
Proof.
  intros l registers choose id T R E. assert (H := encode_facts l registers T R choose id). rewrite E in H. exact H.
Qed.

Lemma C62_total_partial_pf : forall l registers choose id, topological l -> reads_inputs l -> (forall g, g <> [] -> registers g = true) ->
  exists e, encode l registers choose id = Some e.
Proof.
  intros l registers choose id T R H. destruct (encode l registers choose id) as [e|] eqn:E; [eauto|]. exfalso. destruct (C62_fails_pf _ _ _ _ T R E) as (x & w & g & _ & _ & Hw & _ & _ & N). rewrite H in N; [discriminate|]. intros ->. destruct Hw.
Qed.

Lemma C62_total_refuted_pf : ~ forall l registers choose id, topological l -> reads_inputs l -> exists e, encode l registers choose id = Some e.
Proof.
  intros H. destruct (H [{| n_id := 0; n_in := []; n_order := []; n_reads := []; n_ok := false |}; {| n_id := 1; n_in := [0]; n_order := []; n_reads := [0]; n_ok := true |}] (fun _ => false) (fun _ => 0) 1) as [e E]; [| |discriminate].
  - apply check_topological. reflexivity.
  - intros x [<-|[<-|[]]] K; [discriminate|]. cbn. split; auto. intros ?; auto.
Qed.

Lemma C62_order_edges_refuted_pf : exists l registers choose id e i g, topological l /\ (forall x, In x l -> n_ok x = true -> incl (n_in x) (n_reads x)) /\
  encode l registers choose id = Some e /\ In (OpaqueBarrier i g) (e_items e) /\ ~ in_order l (groups e) /\ ~ convex l g.
Proof.
  set (l := [{| n_id := 0; n_in := []; n_order := []; n_reads := []; n_ok := false |}; {| n_id := 1; n_in := []; n_order := [0]; n_reads := []; n_ok := true |}; {| n_id := 2; n_in := [0; 1]; n_order := []; n_reads := []; n_ok := false |}]).
  exists l, (fun _ => true), (fun _ => 0), 1. destruct (encode l (fun _ => true) (fun _ => 0) 1) as [e|] eqn:E; [|discriminate]. vm_compute in E. injection E as <-.
  exists {| e_items := [Command 1; OpaqueBarrier (1, 0) [2; 0]]; e_extra := None; e_reg := {| r_id := 1; r_next := 1; r_graphs := [((1, 0), [2; 0])] |} |}, (1, 0), [2; 0].
  assert (E01 : edge l 0 1) by (eexists; split; [right; left; reflexivity|cbn; auto]). assert (E12 : edge l 1 2) by (eexists; split; [right; right; left; reflexivity|cbn; auto]).
  split; [|split; [|split; [reflexivity|split; [right; now left|split]]]].
  - apply check_topological. reflexivity.
  - intros x [<-|[<-|[<-|[]]]] K; try discriminate. intros ? [].
  - intros O. assert (H := O [] [1] [[2; 0]; []] eq_refl 1 0 (or_introl eq_refl) E01). cbn in H. destruct H as [H|[]]. discriminate.
  - intros C. assert (H := C 0 1 2 ltac:(cbn; auto) ltac:(cbn; auto) (path_step _ _ _ _ (path_here _ _) E01) (path_step _ _ _ _ (path_here _ _) E12)). cbn in H. destruct H as [H|[H|[]]]; discriminate.
Qed.

Lemma C63_lookup_pf : forall is_dataflow children (region : nat -> list node) registers choose subcircuits fuel queue c,
  encode_circuits is_dataflow children (fun n => encode (region n) (registers n) (choose n)) subcircuits fuel start queue = Some c ->
  NoDup (map fst (c_graphs c)) /\ NoDup (map fst (c_circuits c)) /\
  forall n e i g, In (n, e) (c_circuits c) -> In (i, g) (opaque e) -> lookup (c_graphs c) i = Some g.
Proof.
  intros is_dataflow children region registers choose sub fuel queue c E.
  assert (I := circuits_cinv is_dataflow children _ sub (fun n k e H => encode_reg (region n) (registers n) (choose n) k e H) fuel start queue c cinv_start E).
  split; [apply I|]. split; [apply I|]. intros n e i g Hn Ho. apply lookup_in; [apply I|]. eapply (ci_known _ I); eauto.
Qed.

Lemma C63_ends_pf : forall is_dataflow children (encode_region : nat -> nat -> option encoded) subcircuits (rank : nat -> nat) queue,
  (forall n k, is_dataflow n = true -> exists e, encode_region n k = Some e) ->
  (forall n m, In m (children n) -> rank m < rank n) ->
  (forall n k e i g m, encode_region n k = Some e -> In (i, g) (r_graphs (e_reg e)) -> In m g -> rank m < rank n) ->
  exists fuel c, encode_circuits is_dataflow children encode_region subcircuits fuel start queue = Some c.
Proof.
  intros is_dataflow children er sub rank queue H1 H2 H3. apply (circuits_total is_dataflow children er sub H1 rank H2 H3 (S (list_max (map rank queue)))). intros n Hn.
  assert (F := proj1 (list_max_le (map rank queue) (list_max (map rank queue))) (Nat.le_refl _)). rewrite Forall_forall in F. specialize (F (rank n) (in_map rank _ _ Hn)). lia.
Qed.

Lemma C63_once_refuted_pf : forall d, exists fuel c, encode_circuits (fun _ => true) nested_children nested_encode true fuel start [S d] = Some c /\
  c_count c = 2 ^ S d - 1 /\ length (c_circuits c) <= S d.
Proof.
  intros d. destruct (nested_count (S d) 1 start) as (fuel & c & E & Hc & Hk). exists fuel, c. change (add_candidates nested_children (repeat (S d) 1)) with [S d] in E. split; auto. split; [rewrite Hc; cbn [c_count start]; lia|].
  assert (I := circuits_cinv _ _ _ _ (fun n k e H => encode_reg (nested_region n) (fun _ => false) (fun _ => 0) k e H) fuel start [S d] c cinv_start E).
  rewrite <- (map_length fst). rewrite <- (seq_length (S d) 1). apply NoDup_incl_length; [apply I|]. intros x Hx. destruct (Hk x Hx) as [H|[]]. exact H.
Qed.

Lemma C64_inline_partial_pf : forall Payload Text Op graphs (new_inline : list nat -> option Payload) (cs cs' : list (@command Payload Text Op)),
  ensure_standalone graphs new_inline cs = Some cs' ->
  Forall2 (fun x y => match x, y with (k, op, b, d), (k', op', b', d') => k = k' /\ op = op' /\ b = b' /\ (b = false -> d' = d) /\
     (b = true -> match d with Some (External id) => exists g p, lookup graphs id = Some g /\ new_inline g = Some p /\ d' = Some (Inline p) | _ => d' = None end) end) (all_parts cs) (all_parts cs').
Proof.
  intros Payload Text Op graphs ni cs cs' E. apply ensure_all in E. induction E as [|[[[k op] b] d] [[[k' op'] b'] d'] x y H F IH]; constructor; auto. cbn in H. destruct H as (-> & -> & -> & H). split; auto. split; auto. split; auto.
  destruct b'; unfold inline_if_payload in H; cbn [negb] in H; split; try discriminate; try (injection H as <-; reflexivity).
  intros _. destruct d as [[id|p|t]|]; try (injection H as <-; reflexivity). destruct (lookup graphs id) as [g|]; [|discriminate]. destruct (ni g) as [p|] eqn:Ep; [|discriminate]. injection H as <-. eauto.
Qed.

Lemma C64_total_pf : forall Payload Text Op graphs (new_inline : list nat -> option Payload) (cs : list (@command Payload Text Op)),
  (forall k op i, In (k, op, true, Some (External i)) (all_parts cs) -> exists g p, lookup graphs i = Some g /\ new_inline g = Some p) ->
  exists cs', ensure_standalone graphs new_inline cs = Some cs'.
Proof.
  intros Payload Text Op graphs ni cs H. apply ensure_some. intros k op [i|p|t] Hd; auto. eapply H; eauto.
Qed.

Lemma C64_twice_refuted_pf : forall Payload Text Op graphs (new_inline : list nat -> option Payload) (cs cs' : list (@command Payload Text Op)),
  ensure_standalone graphs new_inline cs = Some cs' ->
  exists cs'', ensure_standalone graphs new_inline cs' = Some cs'' /\ forall k op d, In (k, op, true, d) (all_parts cs'') -> d = None.
Proof.
  intros Payload Text Op graphs ni cs cs' E. assert (F := C64_inline_partial_pf _ _ _ _ _ _ _ E).
  assert (N : forall k op i, ~ In (k, op, true, Some (External i)) (all_parts cs')).
  { clear E. intros k op i. induction F as [|[[[k1 op1] b1] d1] [[[k2 op2] b2] d2] x y H F IH]; [intros []|]. intros [[= -> -> -> ->]|H']; [|auto]. destruct H as (_ & _ & -> & _ & H). specialize (H eq_refl). destruct d1 as [[j|p|t]|]; try discriminate. destruct H as (g & p & _ & _ & H). discriminate. }
  destruct (C64_total_pf _ _ _ graphs ni cs') as [cs'' E2]; [intros k op i H; exfalso; eapply N; eauto|]. exists cs''. split; auto. assert (F2 := C64_inline_partial_pf _ _ _ _ _ _ _ E2). clear E E2 F. intros k op d.
  induction F2 as [|[[[k1 op1] b1] d1] [[[k2 op2] b2] d2] x y H F IH]; [intros []|]. intros [[= -> -> -> ->]|H']; [|apply IH; auto; intros k' op' i Hi; apply (N k' op' i); now right].
  destruct H as (-> & -> & -> & _ & H). specialize (H eq_refl). destruct d1 as [[j|p|t]|]; auto. exfalso. apply (N k op j). now left.
Qed.

Lemma C65_edges_pf : forall ps d, insert_all new_decoder ps = Some d -> Permutation (d_edges d) (join (sources ps) (raw_targets ps)).
Proof.
  exact insert_all_some.
Qed.

Lemma C65_panics_pf : forall ps, insert_all new_decoder ps = None <-> ~ NoDup (map fst (sources ps)).
Proof.
  exact insert_all_none.
Qed.

Lemma C65_reordered_pf : forall ps ps' d, Permutation ps ps' -> insert_all new_decoder ps = Some d ->
  exists d', insert_all new_decoder ps' = Some d' /\ Permutation (d_edges d') (d_edges d).
Proof.
  intros ps ps' d P E. assert (Ps : Permutation (sources ps) (sources ps')) by (apply Permutation_flat_map; auto). assert (Pt : Permutation (raw_targets ps) (raw_targets ps')) by (apply Permutation_flat_map; auto).
  destruct (insert_all new_decoder ps') as [d'|] eqn:E'.
  - exists d'. split; auto. rewrite (insert_all_some _ _ E), (insert_all_some _ _ E'). apply join_perm; apply Permutation_sym; auto.
  - exfalso. apply insert_all_none in E'. apply E'. eapply Permutation_NoDup; [apply Permutation_map; exact Ps|]. assert (H := proj2 (insert_all_none ps)). destruct (ListDec.NoDup_dec Nat.eq_dec (map fst (sources ps))) as [N|N]; auto. rewrite (H N) in E. discriminate.
Qed.

Lemma C65_targets_partial_pf : forall ps d, insert_all new_decoder ps = Some d ->
  (forall p i ts t, In p ps -> In (i, ts) (p_inputs p) -> In t ts -> p_node_map p (fst t) = fst t) ->
  Permutation (d_edges d) (join (sources ps) (targets ps)).
Proof.
  intros ps d E H. assert (T : targets ps = raw_targets ps).
  { clear E. unfold targets, raw_targets. induction ps as [|p ps IH]; cbn [flat_map]; auto. rewrite IH by (intros q i ts t Hq; apply H; now right). apply f_equal2; [|reflexivity].
    assert (Hp : forall i ts t, In (i, ts) (p_inputs p) -> In t ts -> p_node_map p (fst t) = fst t) by (intros i ts t; apply H; now left). clear -Hp. induction (p_inputs p) as [|[i ts] is IH]; cbn [flat_map fst snd]; auto.
    rewrite IH by (intros j us t Hj; apply (Hp j us t); now right). apply f_equal2; [|reflexivity]. apply map_ext_in. intros [n q] Ht. rewrite (Hp i ts (n, q) (or_introl eq_refl) Ht). reflexivity. }
  rewrite T. apply insert_all_some. auto.
Qed.

Lemma C65_targets_refuted_pf : exists ps d, insert_all new_decoder ps = Some d /\ NoDup (map fst (targets ps)) /\
  ~ Permutation (d_edges d) (join (sources ps) (targets ps)).
Proof.
  exists [{| p_inputs := []; p_outputs := [(7, (1, 0))]; p_node_map := fun n => n + 10 |}; {| p_inputs := [(7, [(1, 0)])]; p_outputs := []; p_node_map := fun n => n + 20 |}], {| d_wires := [(7, Associated (11, 0)); (7, Associated (11, 0))]; d_edges := [((11, 0), (1, 0))] |}.
  split; [reflexivity|]. split; [repeat constructor; cbn; lia|]. intros P. apply (Permutation_in ((11, 0), (1, 0))) in P; [|now left]. vm_compute in P. destruct P as [P|[]]. discriminate.
Qed.

