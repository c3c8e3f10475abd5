(** Lemmas on the registries, the encoding of nested regions, standalone circuits and edges between inline payloads. *)
From Coq Require Import List Bool Arith Lia Permutation.
From Verif Require Import OpqModel OpqSpec OpqProofs.
Import ListNotations.

(** ** Registries, for any region *)
Section Reg.
Variable l : list node.
Variable registers : list nat -> bool.
Variable choose : list (nat * nat) -> nat.
Definition known (r : registry) (i : item) : Prop := match i with Command _ => True | OpaqueBarrier id g => In (id, g) (r_graphs r) end.
Record rinv (k : nat) (s : state) : Prop := { ri_ok : reg_ok (s_reg s); ri_id : r_id (s_reg s) = k; ri_items : forall i, In i (s_items s) -> known (s_reg s) i }.
Lemma known_mono r r' i : incl (r_graphs r) (r_graphs r') -> known r i -> known r' i.
Proof. intros H. destruct i; cbn; auto. Qed.
Lemma gwv_rinv k fuel : forall s u, rinv k s -> let s' := fst (get_wire_values l registers fuel s u) in rinv k s' /\ incl (r_graphs (s_reg s)) (r_graphs (s_reg s')).
Proof.
  induction fuel as [|fuel IH]; intros s u I; cbn [get_wire_values fst]; [split; [auto|intros x; auto]|].
  destruct (extract_component (s_tracker s) u) as [[g t]|]; [|split; [auto|intros x; auto]].
  destruct (register (s_reg s) g) as [i r] eqn:Er. destruct (reg_register _ _ _ _ (ri_ok _ _ I) Er) as (K & Hin & Hinc & Hid).
  assert (I0 : rinv k {| s_tracker := t; s_items := s_items s; s_reg := r |}) by (split; cbn; [auto|rewrite Hid; apply I|intros j Hj; eapply known_mono; [exact Hinc|apply I; auto]]).
  assert (F : forall ms s0, rinv k s0 -> rinv k (fold_left (fun s m => fst (get_wire_values l registers fuel s m)) ms s0) /\ incl (r_graphs (s_reg s0)) (r_graphs (s_reg (fold_left (fun s m => fst (get_wire_values l registers fuel s m)) ms s0)))).
  { induction ms as [|m ms IHm]; intros s0 H0; cbn [fold_left]; [split; [auto|intros x; auto]|]. destruct (IH s0 m H0) as [H1 H2]. destruct (IHm _ H1) as [H3 H4]. split; auto. eapply incl_tran; eauto. }
  destruct (F (boundary l g) _ I0) as [F1 F2]. cbn [s_reg] in F2. destruct (registers g); cbn [fst s_reg]; (split; [|eapply incl_tran; eauto]); auto.
  split; cbn; try apply F1. intros j Hj. apply in_app_or in Hj. destruct Hj as [Hj|[<-|[]]]; [apply F1; auto|]. cbn. apply F2. auto.
Qed.
Lemma read_all_rinv k us : forall s s', rinv k s -> read_all l registers s us = Some s' -> rinv k s'.
Proof.
  induction us as [|u us IH]; intros s s' I; cbn [read_all]; [intros [= <-]; auto|]. destruct (gwv_rinv k (depth s) s u I) as [H _]. destruct (get_wire_values l registers (depth s) s u) as [s1 []]; [|discriminate]. intros E. eapply IH; eauto.
Qed.
Lemma run_rinv k m : forall s s', rinv k s -> run_encoder l registers s m = Some s' -> rinv k s'.
Proof.
  induction m as [|x m IH]; intros s s' I; cbn [run_encoder]; [intros [= <-]; auto|]. unfold try_encode_node. destruct (read_all l registers s (n_reads x)) as [s1|] eqn:E; [|discriminate].
  assert (I1 := read_all_rinv k _ _ _ I E). apply IH. destruct (n_ok x); split; cbn; try apply I1. intros j Hj. apply in_app_or in Hj. destruct Hj as [Hj|[<-|[]]]; [apply I1; auto|exact Logic.I].
Qed.
Lemma finish_rinv k fuel : forall s x s' x', rinv k s -> finish_loop l registers choose fuel s x = Some (s', x') -> rinv k s'.
Proof.
  induction fuel as [|fuel IH]; intros s x s' x' I; cbn [finish_loop]; destruct (t_nodes (s_tracker s)) as [|y n]; try discriminate.
  1,2: intros [= <- <-]; auto.
  match goal with |- context[get_wire_values l registers (depth s) s ?v] => destruct (gwv_rinv k (depth s) s v I) as [H _]; destruct (get_wire_values l registers (depth s) s v) as [s1 []] end; intros E; (eapply IH; [exact H|exact E]).
Qed.
Lemma encode_reg k e : encode l registers choose k = Some e ->
  reg_ok (e_reg e) /\ r_id (e_reg e) = k /\ (forall id g, In (id, g) (opaque e) -> In (id, g) (r_graphs (e_reg e))).
Proof.
  unfold encode. destruct (run_encoder l registers _ l) as [s|] eqn:Er; [|discriminate]. assert (I0 : rinv k {| s_tracker := new_tracker; s_items := []; s_reg := new_registry k |}) by (split; cbn; [apply reg_new|reflexivity|tauto]).
  assert (I1 := run_rinv k _ _ _ I0 Er). unfold finish. destruct (finish_loop l registers choose (depth s) s []) as [[s' x]|] eqn:Ef; [|discriminate]. assert (I2 := finish_rinv k _ _ _ _ _ I1 Ef).
  assert (B : forall id g is, In (id, g) (flat_map (fun i => match i with OpaqueBarrier id g => [(id, g)] | Command _ => [] end) is) -> In (OpaqueBarrier id g) is).
  { intros id g is H. apply in_flat_map in H. destruct H as (i & Hi & H). destruct i; cbn in H; [destruct H|]. destruct H as [[= -> ->]|[]]. auto. }
  destruct x as [|u x].
  - intros [= <-]. cbn [e_reg opaque e_items e_extra]. split; [apply I2|]. split; [apply I2|]. intros id g H. unfold opaque in H. cbn [e_items e_extra] in H. rewrite app_nil_r in H. apply B in H. apply (ri_items _ _ I2) in H. exact H.
  - destruct (register (s_reg s') (u :: x)) as [i r] eqn:Eg. destruct (reg_register _ _ _ _ (ri_ok _ _ I2) Eg) as (K & Hin & Hinc & Hid). intros [= <-]. cbn [e_reg]. split; auto. split; [rewrite Hid; apply I2|].
    intros id g H. unfold opaque in H. cbn [e_items e_extra] in H. apply in_app_or in H. destruct H as [H|[[= <- <-]|[]]]; auto. apply B in H. apply (ri_items _ _ I2) in H. apply Hinc. exact H.
Qed.
End Reg.

(** ** Nested regions *)
Section Circuits.
Variable is_dataflow : nat -> bool.
Variable children : nat -> list nat.
Variable encode_region : nat -> nat -> option encoded.
Variable subcircuits : bool.
Hypothesis good : forall n k e, encode_region n k = Some e -> reg_ok (e_reg e) /\ r_id (e_reg e) = k /\ (forall id g, In (id, g) (opaque e) -> In (id, g) (r_graphs (e_reg e))).
Record cinv (s : circuits) : Prop := {
  ci_ids : forall id g, In (id, g) (c_graphs s) -> fst id <= c_count s;
  ci_nodup : NoDup (map fst (c_graphs s));
  ci_known : forall n e id g, In (n, e) (c_circuits s) -> In (id, g) (opaque e) -> In (id, g) (c_graphs s);
  ci_one : NoDup (map fst (c_circuits s)) }.
Lemma cinv_start : cinv start.
Proof. clear. split; cbn; [intros ? ? []|constructor|intros ? ? ? ? []|constructor]. Qed.
Lemma NoDup_app_intro {A} (a b : list A) : NoDup a -> NoDup b -> (forall x, In x a -> ~ In x b) -> NoDup (a ++ b).
Proof. induction a as [|x a IH]; cbn; auto. intros H1 H2 H. apply NoDup_cons_iff in H1. destruct H1 as [H1 H3]. constructor; [rewrite in_app_iff; intros [K|K]; [auto|apply (H x); auto]|]. apply IH; auto. Qed.
Lemma candidate_cinv s n s' more : cinv s -> encode_candidate is_dataflow children encode_region subcircuits s n = Some (s', more) -> cinv s'.
Proof.
  intros I. unfold encode_candidate. destruct (is_dataflow n); [|intros [= <- _]; auto]. destruct (encode_region n (c_count s + 1)) as [e|] eqn:E; [|discriminate]. intros [= <- _]. apply good in E. destruct E as ([K1 K2] & Kid & Kop). split; cbn [c_count c_circuits c_graphs].
  - intros id g H. apply in_app_or in H. destruct H as [H|H]; [apply K1 in H; lia|]. apply (ci_ids _ I) in H. lia.
  - rewrite map_app. apply NoDup_app_intro; auto; [apply I|]. intros id H1 H2. apply in_map_iff in H1, H2. destruct H1 as ((i1 & g1) & <- & H1), H2 as ((i2 & g2) & E2 & H2). cbn in E2. subst i2. apply K1 in H1. apply (ci_ids _ I) in H2. cbn in *. lia.
  - intros m e' id g H Ho. apply in_or_app. destruct H as [[= <- <-]|H]; auto. apply filter_In in H. right. eapply (ci_known _ I); [apply H|exact Ho].
  - unfold insert_circuit. cbn [map fst]. constructor; [|apply NoDup_fst_filter; apply I]. intros H. apply in_map_iff in H. destruct H as ((m & e') & Em & H). cbn in Em. subst m. apply filter_In in H. destruct H as [_ H]. cbn in H. rewrite Nat.eqb_refl in H. discriminate.
Qed.
Lemma circuits_cinv fuel : forall s q c, cinv s -> encode_circuits is_dataflow children encode_region subcircuits fuel s q = Some c -> cinv c.
Proof.
  induction fuel as [|fuel IH]; intros s [|n q] c I; cbn [encode_circuits]; try discriminate.
  1,2: intros [= <-]; auto.
  destruct (encode_candidate _ _ _ _ s n) as [[s1 more]|] eqn:E; [|discriminate]. apply IH. eapply candidate_cinv; eauto.
Qed.
(** *** Termination *)
Hypothesis total : forall n k, is_dataflow n = true -> exists e, encode_region n k = Some e.
Variable rank : nat -> nat.
Hypothesis child_rank : forall n m, In m (children n) -> rank m < rank n.
Hypothesis region_rank : forall n k e id g m, encode_region n k = Some e -> In (id, g) (r_graphs (e_reg e)) -> In m g -> rank m < rank n.
Lemma candidate_total s n : exists s' more, encode_candidate is_dataflow children encode_region subcircuits s n = Some (s', more) /\ forall m, In m more -> rank m < rank n.
Proof.
  unfold encode_candidate. destruct (is_dataflow n) eqn:D.
  - destruct (total n (c_count s + 1) D) as [e E]. rewrite E. do 2 eexists. split; [reflexivity|]. destruct subcircuits; [|intros m []]. intros m H. apply filter_In in H. destruct H as [H _]. apply in_flat_map in H. destruct H as ((id & g) & Hg & Hm). apply in_rev in Hg. eapply region_rank; eauto.
  - do 2 eexists. split; [reflexivity|]. intros m H. apply filter_In in H. apply child_rank. apply H.
Qed.
Lemma queue_step r q : forall rest s, (forall n, In n q -> rank n < S r) -> exists s' more, (forall m, In m more -> rank m < r) /\
  forall fuel, encode_circuits is_dataflow children encode_region subcircuits (length q + fuel) s (q ++ rest) = encode_circuits is_dataflow children encode_region subcircuits fuel s' (rest ++ more).
Proof.
  induction q as [|n q IH]; intros rest s H.
  - exists s, []. split; [intros m []|]. intros fuel. rewrite app_nil_r. reflexivity.
  - destruct (candidate_total s n) as (s1 & more1 & E & R). destruct (IH (rest ++ more1) s1) as (s' & more & Hm & Hf); [intros; apply H; now right|].
    exists s', (more1 ++ more). split.
    + intros m Hin. apply in_app_or in Hin. destruct Hin as [Hin|Hin]; auto. apply R in Hin. assert (rank n < S r) by (apply H; now left). lia.
    + intros fuel. cbn [length plus app encode_circuits]. rewrite E. rewrite <- app_assoc. rewrite Hf. rewrite app_assoc. reflexivity.
Qed.
Lemma circuits_total r : forall s q, (forall n, In n q -> rank n < r) -> exists fuel c, encode_circuits is_dataflow children encode_region subcircuits fuel s q = Some c.
Proof.
  induction r as [|r IH]; intros s q H.
  - destruct q as [|n q]; [exists 0, s; reflexivity|]. exfalso. assert (rank n < 0) by (apply H; now left). lia.
  - destruct (queue_step r q [] s H) as (s' & more & Hm & Hf). destruct (IH s' more Hm) as (fuel & c & E). exists (length q + fuel), c. rewrite app_nil_r in Hf. rewrite Hf. exact E.
Qed.
End Circuits.

(** ** Standalone circuits *)
Section Standalone.
Variables Payload Text Op : Type.
Notation command := (@command Payload Text Op).
Variable graphs : list (subgraph_id * list nat).
Variable new_inline : list nat -> option Payload.
Lemma command_ind' (P : command -> Prop) : (forall op b d, P (Cmd op b d None)) -> (forall op b d cs, Forall P cs -> P (Cmd op b d (Some cs))) -> forall c, P c.
Proof.
  intros H1 H2. fix IH 1. intros [op b d [cs|]]; [|apply H1]. apply H2. induction cs as [|c cs IHc]; constructor; [apply IH|apply IHc].
Qed.
Lemma standalone_box op b d cs : standalone graphs new_inline (Cmd op b d (Some cs)) =
  match inline_if_payload graphs new_inline b d with None => None | Some d => match ensure_standalone graphs new_inline cs with None => None | Some cs => Some (@Cmd Payload Text Op op b d (Some cs)) end end.
Proof.
  cbn [standalone]. destruct (inline_if_payload graphs new_inline b d) as [d'|]; auto.
Qed.
(** One command before and after. *)
Definition step (x y : nat * Op * bool * option (@data Payload Text)) : Prop :=
  match x, y with (k, op, b, d), (k', op', b', d') => k = k' /\ op = op' /\ b = b' /\ inline_if_payload graphs new_inline b d = Some d' end.
Lemma Forall2_app {A B} (R : A -> B -> Prop) a b c d : Forall2 R a b -> Forall2 R c d -> Forall2 R (a ++ c) (b ++ d).
Proof. induction 1; cbn; auto. Qed.
Lemma ensure_parts cs : forall k cs', Forall (fun c : command => forall k c', standalone graphs new_inline c = Some c' -> Forall2 step (parts k c) (parts k c')) cs ->
  ensure_standalone graphs new_inline cs = Some cs' -> Forall2 step (flat_map (parts k) cs) (flat_map (parts k) cs').
Proof.
  induction cs as [|c cs IH]; intros k cs' F; cbn [ensure_standalone]; [intros [= <-]; constructor|]. inversion F as [|? ? F1 F2]; subst. destruct (standalone graphs new_inline c) as [c1|] eqn:Ec; [|discriminate].
  destruct (ensure_standalone graphs new_inline cs) as [cs1|] eqn:Es; [|discriminate]. intros [= <-]. cbn [flat_map]. apply Forall2_app; auto.
Qed.
Lemma standalone_parts (c : command) : forall k c', standalone graphs new_inline c = Some c' -> Forall2 step (parts k c) (parts k c').
Proof.
  induction c as [op b d|op b d cs IH] using command_ind'; intros k c' H.
  - cbn [standalone] in H. destruct (inline_if_payload graphs new_inline b d) as [d'|] eqn:E; [|discriminate]. injection H as <-. cbn [parts]. constructor; [cbn; auto|constructor].
  - rewrite standalone_box in H. destruct (inline_if_payload graphs new_inline b d) as [d'|] eqn:E; [|discriminate]. destruct (ensure_standalone graphs new_inline cs) as [cs'|] eqn:Es; [|discriminate]. injection H as <-. cbn [parts]. constructor; [cbn; auto|].
    eapply ensure_parts; eauto.
Qed.
Lemma ensure_all cs cs' : ensure_standalone graphs new_inline cs = Some cs' -> Forall2 step (all_parts cs) (all_parts cs').
Proof. apply ensure_parts. apply Forall_forall. intros c _ k c'. apply standalone_parts. Qed.
Lemma ensure_some : forall cs : list command, (forall k op d, In (k, op, true, Some d) (all_parts cs) -> match d with External id => exists g p, lookup graphs id = Some g /\ new_inline g = Some p | _ => True end) ->
  exists cs', ensure_standalone graphs new_inline cs = Some cs'.
Proof.
  assert (D : forall b (d : option (@data Payload Text)), (b = true -> match d with Some (External id) => exists g p, lookup graphs id = Some g /\ new_inline g = Some p | _ => True end) -> exists d', inline_if_payload graphs new_inline b d = Some d').
  { intros [] d H; unfold inline_if_payload; cbn [negb]; [|eauto]. destruct d as [[id|p|t]|]; eauto. destruct (H eq_refl) as (g & p & -> & ->). eauto. }
  assert (C : forall c : command, forall k0, (forall k op d, In (k, op, true, Some d) (parts k0 c) -> match d with External id => exists g p, lookup graphs id = Some g /\ new_inline g = Some p | _ => True end) -> exists c', standalone graphs new_inline c = Some c').
  { induction c as [op b d|op b d cs IH] using command_ind'; intros k0 H.
    - cbn [standalone]. destruct (D b d) as [d' ->]; [|eauto]. intros ->. destruct d as [d|]; auto. apply (H k0 op d). now left.
    - rewrite standalone_box. destruct (D b d) as [d' ->]. { intros ->. destruct d as [d|]; auto. apply (H k0 op d). now left. }
      assert (exists cs', ensure_standalone graphs new_inline cs = Some cs') as [cs' ->]; [|eauto].
      assert (H' : forall k op d, In (k, op, true, Some d) (flat_map (parts (S k0)) cs) -> match d with External id => exists g p, lookup graphs id = Some g /\ new_inline g = Some p | _ => True end) by (intros k op' d0 Hin; apply (H k op' d0); right; exact Hin).
      clear H. induction IH as [|c cs Hc F IHF]; cbn [ensure_standalone]; [eauto|]. destruct (Hc (S k0)) as [c' ->]; [intros k op' d0 Hin; apply (H' k op' d0); cbn [flat_map]; apply in_or_app; auto|].
      destruct IHF as [cs' ->]; [intros k op' d0 Hin; apply (H' k op' d0); cbn [flat_map]; apply in_or_app; auto|]. eauto. }
  induction cs as [|c cs IH]; cbn [ensure_standalone]; [eauto|]. intros H. destruct (C c 0) as [c' ->]; [intros k op d Hin; apply (H k op d); unfold all_parts; cbn [flat_map]; apply in_or_app; auto|].
  destruct IH as [cs' ->]; [intros k op d Hin; apply (H k op d); unfold all_parts; cbn [flat_map]; apply in_or_app; auto|]. eauto.
Qed.
End Standalone.

(** ** Edges between inline payloads *)
Definition tof (id : nat) (ts : list (nat * port)) : list port := map snd (filter (fun t => Nat.eqb (fst t) id) ts).
Lemma join_eq ss ts : join ss ts = flat_map (fun s => connect (snd s) (tof (fst s) ts)) ss.
Proof. unfold join, connect, tof. apply flat_map_ext. intros s. rewrite map_map. reflexivity. Qed.
Lemma tof_app id a b : tof id (a ++ b) = tof id a ++ tof id b.
Proof. unfold tof. rewrite filter_app, map_app. reflexivity. Qed.
Lemma tof_tag id i ts : tof id (map (fun t => (i, t)) ts) = if Nat.eqb i id then ts else [].
Proof. unfold tof. induction ts as [|t ts IH]; cbn; [destruct (Nat.eqb i id); auto|]. destruct (Nat.eqb i id) eqn:E; cbn; rewrite IH; auto. Qed.
Record winv (d : decoder) (ss ts : list (nat * port)) : Prop := {
  w_nodup : NoDup (map fst ss);
  w_some : forall id w, In (id, w) ss -> wire_of (d_wires d) id = Associated w;
  w_none : forall id, ~ In id (map fst ss) -> wire_of (d_wires d) id = Pending (tof id ts);
  w_edges : Permutation (d_edges d) (join ss ts) }.
Lemma wire_cons i st l id : wire_of ((i, st) :: l) id = if Nat.eqb i id then st else wire_of l id.
Proof. reflexivity. Qed.
Lemma join_cons s ss ts : join (s :: ss) ts = connect (snd s) (tof (fst s) ts) ++ join ss ts.
Proof. rewrite !join_eq. reflexivity. Qed.
Lemma join_out ss ts i more : ~ In i (map fst ss) -> join ss (ts ++ map (fun t => (i, t)) more) = join ss ts.
Proof.
  induction ss as [|s ss IH]; auto. intros N. cbn [map In] in N. rewrite !join_cons, IH by tauto. rewrite tof_app, tof_tag. destruct (Nat.eqb_spec i (fst s)) as [E|E]; [exfalso; apply N; auto|]. rewrite app_nil_r. reflexivity.
Qed.
Lemma join_in ss ts i w more : NoDup (map fst ss) -> In (i, w) ss -> Permutation (join ss (ts ++ map (fun t => (i, t)) more)) (join ss ts ++ connect w more).
Proof.
  induction ss as [|s ss IH]; [intros _ []|]. cbn [map]. intros N H. apply NoDup_cons_iff in N. destruct N as [N1 N2]. rewrite !join_cons. rewrite tof_app, tof_tag. destruct H as [->|H].
  - cbn [fst snd] in *. rewrite Nat.eqb_refl. rewrite join_out by auto. unfold connect. rewrite map_app. rewrite <- !app_assoc. apply Permutation_app_head. apply Permutation_app_comm.
  - destruct (Nat.eqb_spec i (fst s)) as [E|E]; [exfalso; apply N1; rewrite <- E; eapply in_fst; eauto|]. rewrite app_nil_r. rewrite <- app_assoc. apply Permutation_app_head. auto.
Qed.
Lemma winv_start : winv new_decoder [] [].
Proof. split; cbn; auto; [constructor|tauto]. Qed.
Lemma in_fst_dec (ss : list (nat * port)) i : (exists w, In (i, w) ss) \/ ~ In i (map fst ss).
Proof. destruct (in_dec Nat.eq_dec i (map fst ss)) as [H|H]; auto. left. apply in_map_iff in H. destruct H as ((j & w) & E & H). cbn in E. subst. eauto. Qed.
Lemma targets_winv d ss ts id more : winv d ss ts -> winv (connect_targets d id more) ss (ts ++ map (fun t => (id, t)) more).
Proof.
  intros I. unfold connect_targets. destruct (in_fst_dec ss id) as [(w & Hw)|N].
  - rewrite (w_some _ _ _ I id w Hw). split; cbn [d_wires d_edges].
    + apply I.
    + intros j v Hj. rewrite wire_cons. destruct (Nat.eqb_spec id j) as [E|E]; [|apply I; auto]. subst j. f_equal. eapply fst_unique; eauto. apply I.
    + intros j Hj. rewrite wire_cons. destruct (Nat.eqb_spec id j) as [E|E]; [subst j; exfalso; apply Hj; eapply in_fst; eauto|]. rewrite (w_none _ _ _ I j Hj). rewrite tof_app, tof_tag. destruct (Nat.eqb_spec id j); [congruence|]. rewrite app_nil_r. reflexivity.
    + rewrite join_in by (eauto; apply I). apply Permutation_app_tail. apply I.
  - rewrite (w_none _ _ _ I id N). split; cbn [d_wires d_edges].
    + apply I.
    + intros j v Hj. rewrite wire_cons. destruct (Nat.eqb_spec id j) as [E|E]; [|apply I; auto]. subst j. exfalso. apply N. eapply in_fst; eauto.
    + intros j Hj. rewrite wire_cons, tof_app, tof_tag. destruct (Nat.eqb_spec id j) as [E|E]; [subst j; reflexivity|]. rewrite app_nil_r. apply I. auto.
    + rewrite join_out by auto. apply I.
Qed.
Lemma join_snoc ss s ts : join (ss ++ [s]) ts = join ss ts ++ connect (snd s) (tof (fst s) ts).
Proof. rewrite !join_eq, flat_map_app. cbn [flat_map]. rewrite app_nil_r. reflexivity. Qed.
Lemma nodup_snoc {A} (a : list A) x : NoDup (a ++ [x]) <-> NoDup a /\ ~ In x a.
Proof.
  split.
  - intros H. split; [|intros K; eapply nodup_app_disj; [exact H|exact K|now left]]. clear -H. induction a as [|y a IH]; cbn in *; [constructor|]. apply NoDup_cons_iff in H. destruct H as [H1 H2]. constructor; auto. intros K. apply H1. apply in_or_app. auto.
  - intros [H N]. apply NoDup_app_intro; auto; [constructor; [intros []|constructor]|]. intros y Hy [<-|[]]. auto.
Qed.
Lemma source_winv d ss ts id w : winv d ss ts ->
  match connect_source d id w with Some d' => winv d' (ss ++ [(id, w)]) ts | None => In id (map fst ss) end.
Proof.
  intros I. unfold connect_source. destruct (in_fst_dec ss id) as [(v & Hv)|N].
  - rewrite (w_some _ _ _ I id v Hv). eapply in_fst; eauto.
  - rewrite (w_none _ _ _ I id N). split; cbn [d_wires d_edges].
    + rewrite map_app. cbn [map fst]. apply nodup_snoc. split; auto. apply I.
    + intros j v Hj. rewrite wire_cons. apply in_app_or in Hj. destruct Hj as [Hj|[[= <- <-]|[]]]; [|rewrite Nat.eqb_refl; auto]. destruct (Nat.eqb_spec id j) as [E|E]; [|apply I; auto]. subst j. exfalso. apply N. eapply in_fst; eauto.
    + intros j Hj. rewrite map_app, in_app_iff in Hj. cbn [map fst In] in Hj. rewrite wire_cons. destruct (Nat.eqb_spec id j) as [E|E]; [tauto|]. apply I. tauto.
    + rewrite join_snoc. cbn [fst snd]. apply Permutation_app_tail. apply I.
Qed.
Lemma nodup_prefix_ids {A} (a b : list A) : NoDup (a ++ b) -> NoDup a.
Proof. induction a as [|x a IH]; cbn; [constructor|]. intros H. apply NoDup_cons_iff in H. destruct H as [H1 H2]. constructor; auto. intros K. apply H1. apply in_or_app. auto. Qed.
Lemma outputs_winv m o : forall d ss ts, winv d ss ts -> let ss' := ss ++ map (fun o => (fst o, (m (fst (snd o)), snd (snd o)))) o in
  match connect_outputs d m o with Some d' => winv d' ss' ts | None => ~ NoDup (map fst ss') end.
Proof.
  induction o as [|[id [n p]] o IH]; intros d ss ts I; cbn [connect_outputs map]; [rewrite app_nil_r; auto|]. assert (H := source_winv d ss ts id (m n, p) I). destruct (connect_source d id (m n, p)) as [d1|].
  - specialize (IH d1 _ ts H). rewrite <- app_assoc in IH. exact IH.
  - intros N. rewrite map_app in N. cbn [map fst] in N. eapply nodup_app_disj; [exact N|exact H|now left].
Qed.
Lemma inputs_winv i : forall d ss ts, winv d ss ts -> winv (fold_left (fun d x => connect_targets d (fst x) (snd x)) i d) ss (ts ++ flat_map (fun x => map (fun t => (fst x, t)) (snd x)) i).
Proof.
  induction i as [|[id more] i IH]; intros d ss ts I; cbn [fold_left flat_map fst snd]; [rewrite app_nil_r; auto|]. rewrite app_assoc. apply IH. apply targets_winv. auto.
Qed.
Lemma all_winv ps : forall d ss ts, winv d ss ts ->
  match insert_all d ps with Some d' => winv d' (ss ++ sources ps) (ts ++ raw_targets ps) | None => ~ NoDup (map fst (ss ++ sources ps)) end.
Proof.
  induction ps as [|p ps IH]; intros d ss ts I; cbn [insert_all]; [unfold sources, raw_targets; cbn; rewrite !app_nil_r; auto|]. unfold insert_inline.
  assert (I1 := inputs_winv (p_inputs p) d ss ts I). assert (H := outputs_winv (p_node_map p) (p_outputs p) _ _ _ I1). cbv zeta in H. destruct (connect_outputs _ _ _) as [d1|].
  - specialize (IH _ _ _ H). unfold sources, raw_targets in *. cbn [flat_map]. rewrite <- !app_assoc in IH. exact IH.
  - intros N. apply H. unfold sources in N. cbn [flat_map] in N. rewrite app_assoc, map_app in N. apply nodup_prefix_ids in N. exact N.
Qed.
Lemma insert_all_none ps : insert_all new_decoder ps = None <-> ~ NoDup (map fst (sources ps)).
Proof.
  assert (H := all_winv ps _ _ _ winv_start). cbn [app] in H. destruct (insert_all new_decoder ps) as [d|]; [split; [discriminate|]|tauto]. intros N. exfalso. apply N. apply H.
Qed.
Lemma insert_all_some ps d : insert_all new_decoder ps = Some d -> Permutation (d_edges d) (join (sources ps) (raw_targets ps)).
Proof. intros E. assert (H := all_winv ps _ _ _ winv_start). rewrite E in H. cbn [app] in H. apply H. Qed.
Lemma perm_tof id a b : Permutation a b -> Permutation (tof id a) (tof id b).
Proof.
  intros P. unfold tof. apply Permutation_map. induction P; cbn; auto; [destruct (Nat.eqb _ _); auto| |etransitivity; eauto]. destruct (Nat.eqb (fst x) id), (Nat.eqb (fst y) id); auto. constructor.
Qed.
Lemma join_perm ss ss' ts ts' : Permutation ss ss' -> Permutation ts ts' -> Permutation (join ss ts) (join ss' ts').
Proof.
  intros P Q. transitivity (join ss ts').
  - rewrite !join_eq. clear P. induction ss as [|s ss IH]; cbn [flat_map]; auto. apply Permutation_app; auto. unfold connect. apply Permutation_map. apply perm_tof. auto.
  - rewrite !join_eq. apply Permutation_flat_map. auto.
Qed.

(** ** Convexity *)
Lemma prefix_closed l gs : in_order l gs -> forall a b, gs = a ++ b -> forall v u, In v (concat a) -> path l u v -> In u (concat a).
Proof.
  intros O a b E v u Hv P. revert Hv. induction P as [|v w P IH Hvw]; auto. intros Hw. apply IH. apply in_concat in Hw. destruct Hw as (h & Hh & Hw). apply in_split in Hh. destruct Hh as (a1 & a2 & ->). rewrite <- app_assoc in E. cbn in E.
  assert (H := O _ _ _ E _ _ Hw Hvw). rewrite concat_app. cbn [concat]. rewrite !in_app_iff in *. tauto.
Qed.
Lemma in_order_convex l gs g : in_order l gs -> NoDup (concat gs) -> In g gs -> convex l g.
Proof.
  intros O N Hg u v w Hu Hw Puv Pvw. apply in_split in Hg. destruct Hg as (a & b & E).
  assert (E' : gs = (a ++ [g]) ++ b) by (rewrite <- app_assoc; exact E).
  assert (Hv : In v (concat (a ++ [g]))) by (eapply (prefix_closed l gs O _ _ E'); [|exact Pvw]; rewrite concat_app, in_app_iff; right; cbn; rewrite app_nil_r; auto).
  rewrite concat_app, in_app_iff in Hv. cbn in Hv. rewrite app_nil_r in Hv. destruct Hv as [Hv|Hv]; auto. exfalso.
  assert (Ha := prefix_closed l gs O _ _ E _ _ Hv Puv). rewrite E, concat_app in N. eapply nodup_app_disj; [exact N|exact Ha|]. cbn. apply in_or_app. auto.
Qed.

(** ** Nested containers without registers *)
Section Nested.
Definition nested_children (n : nat) : list nat := match n with 0 => [] | S m => [m] end.
Definition nested_region (n : nat) : list node := map (fun m => {| n_id := m; n_in := []; n_order := []; n_reads := []; n_ok := false |}) (nested_children n).
Definition nested_encode (n k : nat) : option encoded := encode (nested_region n) (fun _ => false) (fun _ => 0) k.
Notation EC := (encode_circuits (fun _ => true) nested_children nested_encode true).
Definition keys (s : circuits) : list nat := map fst (c_circuits s).
Lemma nested_result m k : nested_encode (S m) k = Some {| e_items := []; e_extra := Some ((k, 1), [m]); e_reg := {| r_id := k; r_next := 2; r_graphs := [((k, 1), [m]); ((k, 0), [m])] |} |}.
Proof. cbv - [Nat.eqb]. rewrite !Nat.eqb_refl. reflexivity. Qed.
Lemma level m : forall k s rest, exists s', c_count s' = c_count s + k /\ (forall x, In x (keys s') -> x = S m \/ In x (keys s)) /\
  forall fuel, EC (k + fuel) s (repeat (S m) k ++ rest) = EC fuel s' (rest ++ add_candidates nested_children (repeat m (k + k))).
Proof.
  induction k as [|k IH]; intros s rest.
  - exists s. split; [lia|]. split; auto. intros fuel. cbn. rewrite app_nil_r. reflexivity.
  - set (s1 := {| c_count := c_count s + 1; c_circuits := insert_circuit (c_circuits s) (S m) {| e_items := []; e_extra := Some ((c_count s + 1, 1), [m]); e_reg := {| r_id := c_count s + 1; r_next := 2; r_graphs := [((c_count s + 1, 1), [m]); ((c_count s + 1, 0), [m])] |} |};
                 c_graphs := [((c_count s + 1, 1), [m]); ((c_count s + 1, 0), [m])] ++ c_graphs s |}).
    destruct (IH s1 (rest ++ add_candidates nested_children [m; m])) as (s' & Hc & Hk & Hf). exists s'. split; [rewrite Hc; unfold s1; cbn [c_count]; lia|]. split.
    + intros x Hx. apply Hk in Hx. destruct Hx as [Hx|Hx]; auto. unfold keys, s1, insert_circuit in Hx. cbn [c_circuits map fst] in Hx. destruct Hx as [Hx|Hx]; auto. right. apply in_map_iff in Hx. destruct Hx as (y & <- & Hy). apply filter_In in Hy. apply in_map. apply Hy.
    + intros fuel. cbn [plus repeat app encode_circuits]. unfold encode_candidate. rewrite nested_result. cbn [e_reg r_graphs rev app flat_map snd].
      fold s1. rewrite <- app_assoc. change ([m] ++ [m] ++ []) with [m; m]. rewrite Hf. f_equal. rewrite <- app_assoc. f_equal.
      transitivity (add_candidates nested_children ([m; m] ++ repeat m (k + k))); [unfold add_candidates; rewrite filter_app; reflexivity|]. f_equal.
      replace (k + S k) with (S (k + k)) by lia. reflexivity.
Qed.
Lemma nested_count m : forall k s, exists fuel c, EC fuel s (add_candidates nested_children (repeat m k)) = Some c /\ c_count c = c_count s + k * (2 ^ m - 1) /\ (forall x, In x (keys c) -> In x (seq 1 m) \/ In x (keys s)).
Proof.
  induction m as [|m IH]; intros k s.
  - assert (E : add_candidates nested_children (repeat 0 k) = []) by (induction k; cbn; auto). rewrite E. exists 0, s. split; auto. split; [cbn [Nat.pow]; lia|auto].
  - assert (E : add_candidates nested_children (repeat (S m) k) = repeat (S m) k) by (induction k as [|k IHk]; cbn; [auto|]; f_equal; exact IHk). rewrite E.
    destruct (level m k s []) as (s' & Hc & Hk & Hf). destruct (IH (k + k) s') as (fuel & c & H1 & H2 & H3). exists (k + fuel), c. rewrite app_nil_r in Hf. rewrite Hf. split; [exact H1|]. split.
    + rewrite H2, Hc. cbn [Nat.pow]. assert (2 ^ m <> 0) by (apply Nat.pow_nonzero; lia). nia.
    + intros x Hx. apply H3 in Hx. rewrite seq_S, in_app_iff. cbn [In]. destruct Hx as [Hx|Hx]; auto. apply Hk in Hx. destruct Hx as [->|Hx]; auto.
Qed.
End Nested.

(** A test for topological order, for examples. *)
Fixpoint check (seen : list nat) (l : list node) : bool :=
  match l with [] => true | x :: l => forallb (fun u => existsb (Nat.eqb u) seen) (n_in x ++ n_order x) && negb (existsb (Nat.eqb (n_id x)) seen) && check (seen ++ [n_id x]) l end.
Lemma existsb_in u l : existsb (Nat.eqb u) l = true <-> In u l.
Proof. rewrite existsb_exists. split; [intros (x & H & E); apply Nat.eqb_eq in E; subst; auto|intros H; exists u; split; auto; apply Nat.eqb_refl]. Qed.
Lemma check_ok l : forall seen, check seen l = true -> NoDup (map n_id l) /\ (forall u, In u seen -> ~ In u (map n_id l)) /\ forall a x b, l = a ++ x :: b -> incl (n_in x ++ n_order x) (seen ++ map n_id a).
Proof.
  induction l as [|y l IH]; intros seen; cbn [check].
  - intros _. split; [constructor|]. split; [intros u _ []|]. intros [|? ?] x b E; discriminate.
  - intros H. apply andb_true_iff in H. destruct H as [H H3]. apply andb_true_iff in H. destruct H as [H1 H2]. destruct (IH _ H3) as (N & D & P). apply negb_true_iff in H2. rewrite forallb_forall in H1. cbn [map].
    split; [constructor; auto; apply D; apply in_or_app; right; now left|]. split.
    + intros u Hu [E|E]; [|eapply D; eauto; apply in_or_app; auto]. subst u. apply existsb_in in Hu. congruence.
    + intros [|z a] x b E; injection E as -> E.
      * intros u Hu. apply in_or_app. left. apply existsb_in. auto.
      * cbn [map]. assert (Q := P a x b E). rewrite <- app_assoc in Q. exact Q.
Qed.
Lemma check_topological l : check [] l = true -> topological l.
Proof. intros H. destruct (check_ok l [] H) as (N & _ & P). split; auto. Qed.
