(** Proofs about pattern matching: matches are embeddings, and embeddings are found. *)
From Coq Require Import List Bool Arith Lia Permutation.
From Verif Require Import PatSpec PatModel PatProofs PatRewrite.
Import ListNotations.

Lemma all_some_in {A} (l : list (option A)) : forall xs, all_some l = Some xs -> (forall o, In o l -> exists x, o = Some x /\ In x xs) /\ (forall x, In x xs -> In (Some x) l).
Proof.
  induction l as [|o l IH]; cbn [all_some]; intros xs E; [injection E as <-; split; intros ? []|].
  destruct o as [x|]; [|discriminate]. destruct (all_some l) as [ys|]; [|discriminate]. injection E as <-. destruct (IH ys eq_refl) as [H1 H2]. split.
  - intros o [<-|H]; [exists x; split; auto; now left|]. destruct (H1 o H) as (y & -> & Hy). exists y. split; auto. now right.
  - intros y [<-|H]; [now left|right; auto].
Qed.
Lemma exactly_one_some {A} (l : list A) x : exactly_one l = Some x -> l = [x].
Proof. destruct l as [|y [|z l]]; cbn; congruence. Qed.
Lemma port_of_inj v w : port_of v = port_of w -> v = w.
Proof. destruct v, w; cbn; congruence. Qed.

(** ** The one-to-one map *)
Lemma lookup_in m a b : lookup m a = Some b -> In (a, b) m.
Proof.
  unfold lookup. destruct (find _ m) as [[a' b']|] eqn:F; [|discriminate]. cbn. intros [= <-]. apply find_some in F. destruct F as [H E]. cbn [fst] in E. destruct (node_id_eq_dec a' a); [subst; auto|discriminate].
Qed.
Lemma lookup_cons m a b x : lookup ((a, b) :: m) x = if node_id_eq_dec a x then Some b else lookup m x.
Proof. unfold lookup. cbn [find fst]. destruct (node_id_eq_dec a x); reflexivity. Qed.
Lemma lookup_none m a b : lookup m a = None -> ~ In (a, b) m.
Proof.
  unfold lookup. destruct (find _ m) as [|] eqn:F; [discriminate|]. intros _ H. apply (find_none _ _ F) in H. cbn [fst] in H. destruct (node_id_eq_dec a a); [discriminate|congruence].
Qed.
Definition one_to_one (m : bimap) : Prop := NoDup (map snd m).
Lemma one_to_one_inj m a a' b : one_to_one m -> In (a, b) m -> In (a', b) m -> a = a'.
Proof.
  unfold one_to_one. induction m as [|[u v] m IH]; [intros _ []|]. cbn [map snd]. intros N H H'. inversion N as [|? ? N1 N2]; subst. destruct H as [H|H], H' as [H'|H']; auto.
  - congruence.
  - exfalso. apply N1. injection H as -> ->. apply in_map_iff. exists (a', b). auto.
  - exfalso. apply N1. injection H' as -> ->. apply in_map_iff. exists (a, b). auto.
Qed.
Lemma bind_spec m a b m' : bind m a b = Some m' -> lookup m' a = Some b /\ (forall x y, lookup m x = Some y -> lookup m' x = Some y) /\ (one_to_one m -> one_to_one m') /\ (forall x y, In (x, y) m' -> In (x, y) m \/ (x = a /\ y = b)).
Proof.
  unfold bind. destruct (lookup m a) as [b'|] eqn:L.
  - destruct (node_id_eq_dec b' b) as [->|]; [|discriminate]. intros [= <-]. auto.
  - destruct (in_dec node_id_eq_dec b (map snd m)) as [|N]; [discriminate|]. intros [= <-]. split; [|split; [|split]].
    + rewrite lookup_cons. destruct (node_id_eq_dec a a); congruence.
    + intros x y Hx. rewrite lookup_cons. destruct (node_id_eq_dec a x); [congruence|auto].
    + intros H. constructor; auto.
    + intros x y [[= -> ->]|H]; auto.
Qed.

Section Match.
Variables ain aout : optype -> nat.
Variable lin typed : optype -> nat -> bool.
Notation circuit := (circuit optype).
Notation follow := (follow ain).
Notation validate_edge := (validate_edge ain).
Notation linked_ports := (linked_ports ain).
Notation users := (users ain).
Notation try_from_circuit := (try_from_circuit ain lin typed).
Notation input_edge := (input_edge ain lin typed).
Notation get_match_map := (get_match_map ain).

Lemma follow_spec c es : forall m m', follow c es m = Some m' ->
  (forall x y, lookup m x = Some y -> lookup m' x = Some y) /\ (one_to_one m -> one_to_one m') /\
  forall e, In e es -> exists s t, lookup m' (e_src e) = Some s /\ lookup m' (e_dst e) = Some t /\ validate_edge c s (e_prop e) = Some t.
Proof.
  induction es as [|e es IH]; intros m m' F; cbn [PatModel.follow] in F; [injection F as <-; split; auto; split; auto; intros e []|].
  destruct (lookup m (e_src e)) as [s|] eqn:Ls; [|discriminate]. destruct (validate_edge c s (e_prop e)) as [t|] eqn:V; [|discriminate]. destruct (bind m (e_dst e) t) as [m1|] eqn:B; [|discriminate].
  destruct (bind_spec _ _ _ _ B) as (B1 & B2 & B3 & _). destruct (IH _ _ F) as (I1 & I2 & I3). split; auto. split; auto. intros e' [<-|He]; auto. exists s, t. auto.
Qed.
Lemma op_of_in c n o : op_of c n = Some o -> In (n, o) (c_nodes c).
Proof.
  unfold op_of. destruct (find _ _) as [[n' o']|] eqn:F; [|discriminate]. cbn. intros [= <-]. apply find_some in F. cbn [fst] in F. destruct F as [H E]. apply Nat.eqb_eq in E. subst. auto.
Qed.
Lemma op_of_node c x : NoDup (map fst (c_nodes c)) -> In x (c_nodes c) -> op_of c (fst x) = Some (snd x).
Proof. intros N H. unfold op_of. rewrite find_id; auto. Qed.
Lemma users_node c w n k : In (HNode n, PIn k) (users c w) -> exists o, In (n, o) (c_nodes c) /\ k < ain o /\ c_src c n k = w.
Proof.
  unfold PatModel.users. intros H. apply in_app_or in H. destruct H as [H|H]; [|apply in_map_iff in H; destruct H as (q & [=] & _)]. apply in_flat_map in H. destruct H as ([m o] & Hx & H). cbn [fst snd] in H.
  apply in_map_iff in H. destruct H as (q & [= -> ->] & H). apply filter_In in H. destruct H as [H E]. apply in_seq in H. destruct (source_eq_dec (c_src c n k) w); [|discriminate]. exists o. split; auto. split; [lia|auto].
Qed.
Lemma node_users c x k : In x (c_nodes c) -> k < ain (snd x) -> In (HNode (fst x), PIn k) (users c (c_src c (fst x) k)).
Proof.
  intros Hx Hk. unfold PatModel.users. apply in_or_app. left. apply in_flat_map. exists x. split; auto. apply in_map_iff. exists k. split; auto. apply filter_In. split; [apply in_seq; lia|]. destruct (source_eq_dec _ _); congruence.
Qed.
Lemma users_shape c w h q : In (h, q) (users c w) -> (exists n k, h = HNode n /\ q = PIn k) \/ h = HOut.
Proof.
  unfold PatModel.users. intros H. apply in_app_or in H. destruct H as [H|H].
  - apply in_flat_map in H. destruct H as (x & _ & H). apply in_map_iff in H. destruct H as (k & [= <- <-] & _). left. eauto.
  - apply in_map_iff in H. destruct H as (k & [= <- <-] & _). auto.
Qed.
Lemma out_users c q w : nth_error (c_outs c) q = Some w -> In (HOut, PIn q) (users c w).
Proof.
  intros H. unfold PatModel.users. apply in_or_app. right. apply in_map_iff. exists q. split; auto. apply filter_In. split; [apply in_seq; split; [lia|]; cbn; apply nth_error_Some; congruence|]. rewrite (nth_error_nth _ _ _ H). destruct (source_eq_dec w w); congruence.
Qed.
Lemma linked_in c n k t : exactly_one (linked_ports c (HNode n) (PIn k)) = Some t -> exists o, op_of c n = Some o /\ k < ain o /\ t = port_of (c_src c n k).
Proof.
  cbn [PatModel.linked_ports]. destruct (op_of c n) as [o|]; [|discriminate]. destruct (Nat.ltb_spec k (ain o)); [|discriminate]. cbn. intros [= <-]. exists o. auto.
Qed.
Lemma in_linked c x k : NoDup (map fst (c_nodes c)) -> In x (c_nodes c) -> k < ain (snd x) -> exactly_one (linked_ports c (HNode (fst x)) (PIn k)) = Some (port_of (c_src c (fst x) k)).
Proof. intros N Hx Hk. cbn [PatModel.linked_ports]. rewrite op_of_node by auto. apply Nat.ltb_lt in Hk. rewrite Hk. reflexivity. Qed.

(** ** The edges of the pattern *)
Definition pattern_edge (pc : circuit) (x : nat * optype) (k : nat) : edge :=
  match c_src pc (fst x) k with
  | Inp q => {| e_src := HugrNode (HNode (fst x)); e_dst := CopyNode HIn (POut q); e_prop := InputEdge (PIn k) |}
  | Out n j => {| e_src := HugrNode (HNode (fst x)); e_dst := HugrNode (HNode n); e_prop := InternalEdge (PIn k) (POut j) (lin (snd x) k) |}
  end.
Lemma input_edge_is pc x k e : NoDup (map fst (c_nodes pc)) -> In x (c_nodes pc) -> k < ain (snd x) -> input_edge pc x k = Some e -> e = pattern_edge pc x k.
Proof.
  intros N Hx Hk. unfold PatModel.input_edge, edge_from_port, pattern_edge. rewrite in_linked by auto. destruct (c_src pc (fst x) k) as [q|n j]; cbn [port_of].
  - intros [= <-]. reflexivity.
  - destruct (typed (snd x) k); [|discriminate]. intros [= <-]. reflexivity.
Qed.
Record built (pc : circuit) (commands : list (nat * optype)) (p : pattern) : Prop := {
  b_nodes : p_nodes p = map (fun x => (fst x, encode (snd x))) commands;
  b_edge : forall x k, In x commands -> k < ain (snd x) -> exists e, input_edge pc x k = Some e /\ In e (p_edges p);
  b_edges : forall e, In e (p_edges p) -> exists x k, In x commands /\ k < ain (snd x) /\ input_edge pc x k = Some e;
  b_root : root_order (p_nodes p) (p_edges p) (p_root p) = Some (p_order p);
  b_root_in : In (p_root p) (map fst commands);
  b_inputs : p_inputs p = map (fun k => linked_ports pc HIn (POut k)) (seq 0 (c_inputs pc));
  b_outputs : p_outputs p = map port_of (c_outs pc);
  b_wires : forall h q, In (h, q) (concat (p_inputs p)) -> h <> HOut }.
Lemma any_root_some nodes edges l root es : any_root nodes edges l = Some (root, es) -> root_order nodes edges root = Some es /\ In root (map fst l).
Proof.
  induction l as [|x l IH]; cbn [any_root]; [discriminate|]. destruct (root_order nodes edges (fst x)) as [es'|] eqn:R.
  - intros [= <- <-]. split; auto. now left.
  - intros H. destruct (IH H). split; auto. now right.
Qed.
Lemma try_built pc commands p : try_from_circuit pc commands = inl p -> built pc commands p.
Proof.
  unfold PatModel.try_from_circuit. destruct (existsb _ (c_nodes pc)); [|discriminate]. destruct (all_some _) as [edges|] eqn:Ae; [|discriminate]. destruct (any_root _ _ _) as [[root order]|] eqn:Ar; [|discriminate].
  destruct (existsb _ (concat _)) eqn:Ew; [discriminate|]. intros [= <-]. apply all_some_in in Ae. destruct Ae as [Ae1 Ae2]. apply any_root_some in Ar. destruct Ar as [Ar1 Ar2].
  constructor; cbn [p_nodes p_edges p_root p_order p_inputs p_outputs]; auto.
  - intros x k Hx Hk. destruct (Ae1 (input_edge pc x k)) as (e & -> & He); [|exists e; auto]. apply in_flat_map. exists x. split; auto. apply in_map_iff. exists k. split; auto. apply in_seq. lia.
  - intros e He. apply Ae2 in He. apply in_flat_map in He. destruct He as (x & Hx & He). apply in_map_iff in He. destruct He as (k & E & Hk). apply in_seq in Hk. exists x, k. split; auto. split; [lia|auto].
  - rewrite map_map in Ar2. cbn [fst] in Ar2. exact Ar2.
  - intros h q H ->. apply (f_equal negb) in Ew. cbn in Ew. rewrite negb_true_iff in Ew. rewrite <- Bool.not_true_iff_false in Ew. apply Ew. apply existsb_exists. exists (HOut, q). split; auto.
Qed.

(** ** A match is an embedding *)
(** An order of the edges in which every edge occurs, as it is or reversed. *)
Definition covers (edges order : list edge) : Prop := forall e, In e edges -> In e order \/ exists e', edge_reverse e = Some e' /\ In e' order.
Section Sound.
Variables (c pc : circuit) (commands : list (nat * optype)) (p : pattern) (order : list edge) (root : nat) (m : bimap) (lp : list (nat * optype)).
Hypothesis Nc : NoDup (map fst (c_nodes c)).
Hypothesis Hp : schedule ain aout lin pc lp.
Hypothesis Hcmd : Permutation commands (c_nodes pc).
Hypothesis Hb : built pc commands p.
Hypothesis Hcov : covers (p_edges p) order.
Hypothesis Hm : get_match_map p order c root = Some m.
Hypothesis Hleaf : forall n k d b, ~ In (n, ContainerOp k d b) (c_nodes pc).
Lemma np : NoDup (map fst (c_nodes pc)).
Proof. eapply Permutation_NoDup; [apply Permutation_map, Permutation_sym, (v_perm Hp)|apply (v_ids Hp)]. Qed.
Lemma follow_m : follow c order [(HugrNode (HNode (p_root p)), HugrNode (HNode root))] = Some m /\ forall x, In x (c_nodes pc) -> exists n, lookup m (HugrNode (HNode (fst x))) = Some n /\ validate_node c n (encode (snd x)) = true.
Proof.
  unfold PatModel.get_match_map in Hm. destruct (follow c order _) as [m'|]; [|discriminate]. destruct (forallb _ (p_nodes p)) eqn:F; [|discriminate]. injection Hm as ->. split; auto.
  intros x Hx. rewrite forallb_forall in F. specialize (F (fst x, encode (snd x))). cbn [fst snd] in F. destruct (lookup m _) as [n|]; [exists n; split; auto; apply F|exfalso; cut (false = true); [discriminate|apply F]]; rewrite (b_nodes _ _ _ Hb); apply in_map_iff; exists x; (split; [auto|]); (eapply Permutation_in; [apply Permutation_sym; exact Hcmd|auto]).
Qed.
Lemma bound_node x : In x (c_nodes pc) -> lookup m (HugrNode (HNode (fst x))) = Some (HugrNode (HNode (node_map m (fst x)))) /\ In (node_map m (fst x), snd x) (c_nodes c).
Proof.
  intros Hx. destruct (proj2 follow_m x Hx) as (n & L & V). unfold node_map. rewrite L. unfold validate_node in V. destruct n as [[| |k]|]; try discriminate. split; auto.
  destruct (op_of c k) as [o|] eqn:Eo; [|discriminate]. destruct (match_op_eq_dec (encode o) (encode (snd x))) as [E|]; [|discriminate]. apply op_of_in in Eo. assert (o = snd x); [|subst; auto].
  destruct x as [n o']. cbn [snd] in *. destruct o', o; cbn in E; try discriminate; try congruence. exfalso. eapply Hleaf; eauto.
Qed.
Lemma edge_in x k : In x (c_nodes pc) -> k < ain (snd x) -> In (pattern_edge pc x k) (p_edges p).
Proof.
  intros Hx Hk. destruct (b_edge _ _ _ Hb x k) as (e & E & He); auto; [eapply Permutation_in; [apply Permutation_sym; exact Hcmd|auto]|]. apply input_edge_is in E; auto; [subst; auto|apply np].
Qed.
Lemma follow_edge e : In e order -> exists s t, lookup m (e_src e) = Some s /\ lookup m (e_dst e) = Some t /\ validate_edge c s (e_prop e) = Some t.
Proof. apply (follow_spec c order _ m (proj1 follow_m)). Qed.
Lemma input_wire x k q : In x (c_nodes pc) -> k < ain (snd x) -> c_src pc (fst x) k = Inp q -> let t := port_of (c_src c (node_map m (fst x)) k) in lookup m (CopyNode HIn (POut q)) = Some (CopyNode (fst t) (snd t)).
Proof.
  intros Hx Hk E. cbn zeta. assert (He := edge_in x k Hx Hk). unfold pattern_edge in He. rewrite E in He. destruct (Hcov _ He) as [Ho|(e' & R & _)]; [|discriminate].
  destruct (follow_edge _ Ho) as (s & t & L1 & L2 & V). cbn [e_src e_dst e_prop] in *. rewrite (proj1 (bound_node x Hx)) in L1. injection L1 as <-. cbn [PatModel.validate_edge] in V.
  destruct (exactly_one _) as [[h q']|] eqn:X; [|discriminate]. injection V as <-. apply linked_in in X. destruct X as (o & _ & _ & X). rewrite <- X. exact L2.
Qed.
Lemma inner_wire x k n j : In x (c_nodes pc) -> k < ain (snd x) -> c_src pc (fst x) k = Out n j -> c_src c (node_map m (fst x)) k = Out (node_map m n) j.
Proof.
  intros Hx Hk E. assert (He := edge_in x k Hx Hk). unfold pattern_edge in He. rewrite E in He.
  assert (Hn : exists y, In y (c_nodes pc) /\ fst y = n).
  { assert (Hl : In x lp) by (eapply Permutation_in; [apply (v_perm Hp)|auto]). destruct (in_split _ _ Hl) as (a & b & El). destruct (v_order Hp _ _ _ El (c_src pc (fst x) k)) as [(q & Eq & _)|(y & Hy & K)].
    - apply in_map_iff. exists k. split; auto. apply in_seq. lia.
    - congruence.
    - rewrite E in K. apply (out_id _ aout) in K. destruct K as (j' & [= -> _]). exists y. split; auto. eapply Permutation_in; [apply Permutation_sym, (v_perm Hp)|]. rewrite El. apply in_or_app. auto. }
  destruct Hn as (y & Hy & <-). assert (By := bound_node y Hy). assert (Bx := bound_node x Hx). destruct (Hcov _ He) as [Ho|(e' & R & Ho)].
  - destruct (follow_edge _ Ho) as (s & t & L1 & L2 & V). cbn [e_src e_dst e_prop] in *. rewrite (proj1 Bx) in L1. injection L1 as <-. rewrite (proj1 By) in L2. injection L2 as <-. cbn [PatModel.validate_edge] in V.
    destruct (exactly_one _) as [[h q]|] eqn:X; [|discriminate]. destruct (port_eq_dec (POut j) q) as [<-|]; [|discriminate]. injection V as ->. apply linked_in in X. destruct X as (o & _ & _ & X). apply port_of_inj. rewrite <- X. reflexivity.
  - unfold edge_reverse in R. cbn [e_prop pedge_reverse e_src e_dst] in R. destruct (lin (snd x) k); [|discriminate]. injection R as <-. destruct (follow_edge _ Ho) as (s & t & L1 & L2 & V). cbn [e_src e_dst e_prop] in *.
    rewrite (proj1 By) in L1. injection L1 as <-. rewrite (proj1 Bx) in L2. injection L2 as <-. cbn [PatModel.validate_edge] in V. destruct (exactly_one _) as [[h q]|] eqn:X; [|discriminate]. destruct (port_eq_dec (PIn k) q) as [<-|]; [|discriminate]. injection V as ->.
    apply exactly_one_some in X. cbn [PatModel.linked_ports] in X. assert (U : In (HNode (node_map m (fst x)), PIn k) (users c (Out (node_map m (fst y)) j))) by (rewrite X; now left). apply users_node in U. destruct U as (o & _ & _ & U). exact U.
Qed.
Lemma one_m : one_to_one m.
Proof. apply (follow_spec c order _ m (proj1 follow_m)). constructor; [intros []|constructor]. Qed.
(** What the input list says. *)
Lemma inputs_nth q : q < c_inputs pc -> nth_error (p_inputs p) q = Some (users pc (Inp q)).
Proof.
  intros Hq. rewrite (b_inputs _ _ _ Hb), nth_error_map. rewrite (nth_error_nth' _ 0) by (rewrite seq_length; lia). rewrite seq_nth by lia. reflexivity.
Qed.
Lemma inputs_shape q h r : q < c_inputs pc -> In (h, r) (users pc (Inp q)) -> exists x k, In x (c_nodes pc) /\ h = HNode (fst x) /\ r = PIn k /\ k < ain (snd x) /\ c_src pc (fst x) k = Inp q.
Proof.
  intros Hq H. assert (U := H). apply users_shape in H. destruct H as [(n & k & -> & ->)| ->].
  - apply users_node in U. destruct U as (o & H1 & H2 & H3). exists (n, o), k. auto.
  - exfalso. apply (b_wires _ _ _ Hb HOut r); auto. apply in_concat. exists (users pc (Inp q)). split; auto. eapply nth_error_In. apply inputs_nth. auto.
Qed.
Theorem match_embedding : (forall q, In q (p_inputs p) -> q <> []) -> embedding ain pc c (node_map m) (boundary_input c p m).
Proof.
  intros Hne. constructor.
  - intros x y Hx Hy E. apply (nodup_fst (c_nodes pc)); auto; [apply np|]. assert (Bx := proj1 (bound_node x Hx)). assert (By := proj1 (bound_node y Hy)). rewrite E in Bx. apply lookup_in in Bx, By. assert (X := one_to_one_inj m _ _ _ one_m Bx By). congruence.
  - intros x Hx. apply bound_node. auto.
  - intros x k Hx Hk. destruct (c_src pc (fst x) k) as [q|n j] eqn:E; [|apply inner_wire; auto].
    assert (Hq : q < c_inputs pc).
    { assert (Hl : In x lp) by (eapply Permutation_in; [apply (v_perm Hp)|auto]). destruct (in_split _ _ Hl) as (a & b & El). destruct (v_order Hp _ _ _ El (c_src pc (fst x) k)) as [(q' & Eq & Hq)|(y & Hy & K)].
      - apply in_map_iff. exists k. split; auto. apply in_seq. lia.
      - rewrite E in Eq. injection Eq as <-. auto.
      - rewrite E in K. apply (out_id _ aout) in K. destruct K; discriminate. }
    unfold boundary_input. rewrite inputs_nth by auto. destruct (users pc (Inp q)) as [|[h r] us] eqn:U.
    + exfalso. apply (Hne []); auto. rewrite <- U. eapply nth_error_In. apply inputs_nth. auto.
    + destruct (inputs_shape q h r Hq) as (y & k' & Hy & -> & -> & Hk' & Ey); [rewrite U; now left|].
      assert (A := input_wire x k q Hx Hk E). assert (B := input_wire y k' q Hy Hk' Ey). cbn zeta in *. rewrite A in B. injection B as B1 B2. apply port_of_inj. rewrite (surjective_pairing (port_of _)). rewrite B1, B2. symmetry. apply surjective_pairing.
Qed.
Lemma outputs_wires w : In w (c_outs pc) -> exists n j, w = Out n j.
Proof.
  intros H. destruct w as [q|n j]; [|eauto]. exfalso. assert (Hq : q < c_inputs pc) by (destruct (v_outs Hp _ H) as [(k & [= <-] & Hk)|(y & _ & K)]; auto; apply (out_id _ aout) in K; destruct K; discriminate).
  apply In_nth_error in H. destruct H as (r & H). apply out_users in H. destruct (inputs_shape q _ _ Hq H) as (x & k & _ & E & _). discriminate.
Qed.
Lemma inputs_used : (forall q, In q (p_inputs p) -> q <> []) -> forall k, k < c_inputs pc -> exists x q, In x (c_nodes pc) /\ q < ain (snd x) /\ c_src pc (fst x) q = Inp k.
Proof.
  intros Hne k Hk. assert (N := inputs_nth k Hk). destruct (users pc (Inp k)) as [|[h r] us] eqn:U; [exfalso; apply (Hne []); auto; eapply nth_error_In; eauto|].
  destruct (inputs_shape k h r Hk) as (x & q & H1 & _ & _ & H2 & H3); [rewrite U; now left|]. exists x, q. auto.
Qed.
End Sound.

(** ** Embeddings are found *)
Definition reached (bound : list node_id) (es : list edge) : Prop := forall a e b, es = a ++ e :: b -> In (e_src e) bound \/ In (e_src e) (map e_dst a).
Lemma pick_some bound todo : forall e rest, pick bound todo = Some (e, rest) -> In (e_src e) bound /\ (exists e0, In e0 todo /\ (e = e0 \/ edge_reverse e0 = Some e)) /\
  (forall x, In x todo -> In x rest \/ x = e \/ edge_reverse x = Some e) /\ incl rest todo /\ length todo = S (length rest).
Proof.
  induction todo as [|x todo IH]; cbn [pick]; [discriminate|]. intros e rest. unfold in_ids at 1. destruct (in_dec node_id_eq_dec (e_src x) bound) as [Hs|Hs].
  - intros [= <- <-]. split; auto. split; [exists x; split; [now left|auto]|]. split; [intros y [<-|H]; auto|]. split; [intros y H; now right|reflexivity].
  - unfold in_ids. destruct (in_dec node_id_eq_dec (e_dst x) bound) as [Hd|Hd].
    + destruct (edge_reverse x) as [e'|] eqn:R.
      * intros [= <- <-]. split; [unfold edge_reverse in R; destruct (pedge_reverse (e_prop x)); [injection R as <-; exact Hd|discriminate]|].
        split; [exists x; split; [now left|auto]|]. split; [intros y [<-|H]; auto|]. split; [intros y H; now right|reflexivity].
      * destruct (pick bound todo) as [[e' r]|]; [|discriminate]. intros [= <- <-]. destruct (IH _ _ eq_refl) as (I1 & (e0 & I2 & I3) & I4 & I5 & I6). split; auto. split; [exists e0; split; [now right|auto]|].
        split; [intros y [<-|H]; [left; now left|destruct (I4 y H) as [?|?]; [left; now right|auto]]|]. split; [intros y [<-|H]; [now left|right; auto]|cbn; congruence].
    + destruct (pick bound todo) as [[e' r]|]; [|discriminate]. intros [= <- <-]. destruct (IH _ _ eq_refl) as (I1 & (e0 & I2 & I3) & I4 & I5 & I6). split; auto. split; [exists e0; split; [now right|auto]|].
      split; [intros y [<-|H]; [left; now left|destruct (I4 y H) as [?|?]; [left; now right|auto]]|]. split; [intros y [<-|H]; [now left|right; auto]|cbn; congruence].
Qed.
Lemma traverse_spec fuel : forall bound todo es r b, traverse fuel bound todo = (es, r, b) ->
  reached bound es /\ (forall e, In e es -> exists e0, In e0 todo /\ (e = e0 \/ edge_reverse e0 = Some e)) /\
  (forall x, In x todo -> In x r \/ In x es \/ exists e, edge_reverse x = Some e /\ In e es) /\ (forall n, In n b -> In n bound \/ In n (map e_dst es)).
Proof.
  induction fuel as [|fuel IH]; intros bound todo es r b; cbn [traverse].
  - intros [= <- <- <-]. split; [intros [|? ?] ? ? [=]|]. split; [intros e []|]. split; auto.
  - destruct (pick bound todo) as [[e rest]|] eqn:P.
    + destruct (traverse fuel (e_dst e :: bound) rest) as [[es' r'] b'] eqn:T. intros [= <- <- <-]. destruct (IH _ _ _ _ _ T) as (T1 & T2 & T3 & T4). destruct (pick_some _ _ _ _ P) as (P1 & P2 & P3 & P4 & _). split; [|split; [|split]].
      * intros a x y E. destruct a as [|z a]; cbn [app] in E; injection E as E1 E2; [subst; auto|]. subst z. destruct (T1 a x y E2) as [[<-|H]|H]; [right; now left|auto|right; now right].
      * intros x [<-|H]; auto. destruct (T2 x H) as (e0 & H1 & H2). exists e0. auto.
      * intros x Hx. destruct (P3 x Hx) as [H|[->|H]]; [|right; left; now left|right; right; exists e; split; auto; now left]. destruct (T3 x H) as [?|[?|(e' & ? & ?)]]; auto; [right; left; now right|right; right; exists e'; split; auto; now right].
      * intros n Hn. destruct (T4 n Hn) as [[<-|H]|H]; auto; right; cbn [map]; [now left|now right].
    + intros [= <- <- <-]. split; [intros [|? ?] ? ? [=]|]. split; [intros e []|]. split; auto.
Qed.
(** Orders that the portmatching crate may use. *)
Record proper (p : pattern) (order : list edge) : Prop := {
  o_covers : covers (p_edges p) order;
  o_edges : forall e, In e order -> exists e0, In e0 (p_edges p) /\ (e = e0 \/ edge_reverse e0 = Some e);
  o_reached : reached [HugrNode (HNode (p_root p))] order;
  o_nodes : forall x, In x (p_nodes p) -> fst x = p_root p \/ In (HugrNode (HNode (fst x))) (map e_dst order) }.
Lemma order_proper pc commands p : built pc commands p -> proper p (p_order p).
Proof.
  intros Hb. assert (R := b_root _ _ _ Hb). unfold root_order in R. destruct (traverse _ _ _) as [[es r] b] eqn:T. destruct r as [|]; [|discriminate]. destruct (forallb _ (p_nodes p)) eqn:F; [|discriminate]. injection R as R. rewrite <- R.
  destruct (traverse_spec _ _ _ _ _ _ T) as (T1 & T2 & T3 & T4). constructor; auto.
  - intros e He. destruct (T3 e He) as [[]|[H|H]]; auto.
  - intros x Hx. rewrite forallb_forall in F. specialize (F x Hx). unfold in_ids in F. destruct (in_dec _ _ _) as [H|]; [|discriminate]. destruct (T4 _ H) as [[E|[]]|H']; auto. left. congruence.
Qed.

Section Complete.
Variables (c pc : circuit) (commands : list (nat * optype)) (p : pattern) (order : list edge) (l lp : list (nat * optype)) (f : nat -> nat) (i : nat -> source).
Hypothesis Hc : schedule ain aout lin c l.
Hypothesis Hp : schedule ain aout lin pc lp.
Hypothesis Hcmd : Permutation commands (c_nodes pc).
Hypothesis Hb : built pc commands p.
Hypothesis Ho : proper p order.
Hypothesis Em : embedding ain pc c f i.
Hypothesis Hi : forall k k', k < c_inputs pc -> k' < c_inputs pc -> i k = i k' -> k = k'.
Lemma npc : NoDup (map fst (c_nodes pc)).
Proof. eapply Permutation_NoDup; [apply Permutation_map, Permutation_sym, (v_perm Hp)|apply (v_ids Hp)]. Qed.
Lemma nc : NoDup (map fst (c_nodes c)).
Proof. eapply Permutation_NoDup; [apply Permutation_map, Permutation_sym, (v_perm Hc)|apply (v_ids Hc)]. Qed.
(** What each pattern node is mapped to. *)
Inductive rel : node_id -> node_id -> Prop :=
  | rel_node x : In x (c_nodes pc) -> rel (HugrNode (HNode (fst x))) (HugrNode (HNode (f (fst x))))
  | rel_copy q : q < c_inputs pc -> rel (CopyNode HIn (POut q)) (CopyNode (fst (port_of (i q))) (snd (port_of (i q)))).
Lemma rel_fun a b b' : rel a b -> rel a b' -> b = b'.
Proof. intros H H'. destruct H; inversion H'; subst; congruence. Qed.
Lemma rel_inj a a' b : rel a b -> rel a' b -> a = a'.
Proof.
  intros H H'. destruct H; inversion H'; subst.
  - match goal with H : f _ = f _ |- _ => apply (e_inj Em) in H; auto; subst; reflexivity end.
  - do 2 f_equal. match goal with H : fst (port_of (i ?a)) = _ , K : snd (port_of (i ?a)) = snd (port_of (i ?b)) |- _ => apply Hi; auto; apply port_of_inj; rewrite (surjective_pairing (port_of (i a))), (surjective_pairing (port_of (i b))); congruence end.
Qed.
Lemma source_known x k : In x (c_nodes pc) -> k < ain (snd x) -> match c_src pc (fst x) k with Inp q => q < c_inputs pc | Out n j => exists y, In y (c_nodes pc) /\ fst y = n end.
Proof.
  intros Hx Hk. assert (Hl : In x lp) by (eapply Permutation_in; [apply (v_perm Hp)|auto]). destruct (in_split _ _ Hl) as (a & b & El). assert (K : known aout pc a (c_src pc (fst x) k)) by (apply (v_order Hp _ _ _ El); apply in_map_iff; exists k; split; auto; apply in_seq; lia).
  destruct (c_src pc (fst x) k) as [q|n j]; destruct K as [(q' & E & Hq)|(y & Hy & K)]; try discriminate.
  - injection E as <-. auto.
  - apply (out_id _ aout) in K. destruct K; discriminate.
  - apply (out_id _ aout) in K. destruct K as (j' & [= -> _]). exists y. split; auto. eapply Permutation_in; [apply Permutation_sym, (v_perm Hp)|]. rewrite El. apply in_or_app. auto.
Qed.
(** A linear value has one user. *)
Lemma count_filter {A B} (da : forall u v : B, {u = v} + {u <> v}) (h : A -> B) w xs : length (filter (fun k => if da (h k) w then true else false) xs) = count_occ da (map h xs) w.
Proof. induction xs as [|x xs IH]; cbn; auto. destruct (da (h x) w); cbn; auto. Qed.
Lemma filter_ext_in {A} (q q' : A -> bool) xs : (forall x, In x xs -> q x = q' x) -> filter q xs = filter q' xs.
Proof. induction xs as [|x xs IH]; intros H; cbn; auto. rewrite H by now left. rewrite IH; auto. intros; apply H; now right. Qed.
Lemma users_count w : length (users c w) = count_occ source_eq_dec (uses ain c (c_nodes c)) w.
Proof.
  unfold PatModel.users, uses. rewrite app_length, map_length, count_occ_app. f_equal.
  - induction (c_nodes c) as [|x xs IH]; cbn [flat_map]; auto. rewrite app_length, map_length, count_occ_app, IH. f_equal. unfold ins. apply count_filter.
  - rewrite count_filter. f_equal. generalize (c_outs c) as os. induction os as [|o os IH]; cbn [length seq map]; auto. f_equal. rewrite <- seq_shift, map_map. cbn [nth]. exact IH.
Qed.
Lemma one_user x k : In x (c_nodes c) -> k < ain (snd x) -> lin (snd x) k = true -> users c (c_src c (fst x) k) = [(HNode (fst x), PIn k)].
Proof.
  intros Hx Hk L. assert (U := node_users c x k Hx Hk). assert (C : count_occ source_eq_dec (uses ain c l) (c_src c (fst x) k) <= 1).
  { assert (Hl : In x l) by (eapply Permutation_in; [apply (v_perm Hc)|auto]). assert (Hlin : In (c_src c (fst x) k) (linear_ins ain lin c x)) by (apply in_map_iff; exists k; split; auto; apply filter_In; split; auto; apply in_seq; lia).
    destruct (in_split (c_src c (fst x) k) (uses ain c l)) as (a & b & E). { apply in_or_app. left. apply in_flat_map. exists x. split; auto. apply (linear_in _ ain lin). auto. }
    destruct (v_linear Hc x _ Hl Hlin _ _ E) as [N1 N2]. rewrite E, count_occ_app. cbn [count_occ]. destruct (source_eq_dec _ _); [|congruence]. apply (count_occ_not_In source_eq_dec) in N1, N2. lia. }
  rewrite <- (proj1 (Permutation_count_occ source_eq_dec _ _) (uses_perm _ ain c _ _ (v_perm Hc))), <- users_count in C.
  destruct (users c (c_src c (fst x) k)) as [|u [|v us]]; [contradiction| |cbn in C; lia]. destruct U as [->|[]]. reflexivity.
Qed.
Lemma edge_valid e s : In e order -> rel (e_src e) s -> exists t, validate_edge c s (e_prop e) = Some t /\ rel (e_dst e) t.
Proof.
  intros He R. destruct (o_edges _ _ Ho e He) as (e0 & H0 & Cases). destruct (b_edges _ _ _ Hb e0 H0) as (x & k & Hx & Hk & E). assert (Hx' : In x (c_nodes pc)) by (eapply Permutation_in; eauto).
  apply input_edge_is in E; auto; [|apply npc]. assert (K := source_known x k Hx' Hk). assert (W := e_wire Em x k Hx' Hk). assert (Ex := e_op Em x Hx').
  assert (Lk := in_linked c (f (fst x), snd x) k nc Ex Hk). cbn [fst snd] in Lk. subst e0. unfold pattern_edge in *. destruct (c_src pc (fst x) k) as [q|n j].
  - destruct Cases as [->|X]; [|discriminate]. cbn [e_src e_dst e_prop] in *. inversion R as [y Hy E1 E2|]; subst. assert (y = x) as -> by (apply (nodup_fst (c_nodes pc)); auto; apply npc). cbn [PatModel.validate_edge]. rewrite Lk, W. destruct (port_of (i q)) as [h r] eqn:Pq. eexists. split; [reflexivity|].
    replace (CopyNode h r) with (CopyNode (fst (port_of (i q))) (snd (port_of (i q)))) by (rewrite Pq; reflexivity). constructor. auto.
  - destruct K as (y & Hy & <-). destruct Cases as [->|X].
    + cbn [e_src e_dst e_prop] in *. inversion R as [z Hz E1 E2|]; subst. assert (z = x) as -> by (apply (nodup_fst (c_nodes pc)); auto; apply npc). cbn [PatModel.validate_edge]. rewrite Lk, W. cbn [port_of]. destruct (port_eq_dec (POut j) (POut j)); [|congruence]. eexists. split; [reflexivity|]. constructor. auto.
    + unfold edge_reverse in X. cbn [e_prop pedge_reverse e_src e_dst] in X. destruct (lin (snd x) k) eqn:Lin; [|discriminate]. injection X as <-. cbn [e_src e_dst e_prop] in *.
      inversion R as [z Hz E1 E2|]; subst. assert (z = y) as -> by (apply (nodup_fst (c_nodes pc)); auto; apply npc). cbn [PatModel.validate_edge PatModel.linked_ports]. rewrite <- W. assert (O := one_user (f (fst x), snd x) k Ex Hk Lin). cbn [fst] in O. rewrite O. cbn [exactly_one].
      destruct (port_eq_dec (PIn k) (PIn k)); [|congruence]. eexists. split; [reflexivity|]. constructor. auto.
Qed.
Lemma follow_ok : forall es m, (forall e, In e es -> In e order) -> (forall a b, In (a, b) m -> rel a b) -> reached (map fst m) es -> exists m', follow c es m = Some m' /\ (forall a b, In (a, b) m' -> rel a b).
Proof.
  induction es as [|e es IH]; intros m Sub Rm Re; cbn [PatModel.follow]; [exists m; auto|].
  destruct (Re [] e es eq_refl) as [Hs|[]]. destruct (lookup m (e_src e)) as [s|] eqn:Ls.
  - assert (Rs := Rm _ _ (lookup_in _ _ _ Ls)). destruct (edge_valid e s (Sub e (or_introl eq_refl)) Rs) as (t & V & Rt). rewrite V.
    assert (B : exists m1, bind m (e_dst e) t = Some m1 /\ In (e_dst e) (map fst m1) /\ incl (map fst m) (map fst m1)).
    { unfold bind. destruct (lookup m (e_dst e)) as [b'|] eqn:Ld.
      - assert (b' = t) as -> by (eapply rel_fun; [apply Rm, lookup_in; eauto|auto]). destruct (node_id_eq_dec t t); [|congruence]. exists m. split; auto. split; [apply in_map_iff; exists (e_dst e, t); split; auto; apply lookup_in; auto|apply incl_refl].
      - destruct (in_dec node_id_eq_dec t (map snd m)) as [Hin|].
        + exfalso. apply in_map_iff in Hin. destruct Hin as ([a b] & Eb & Hin). cbn [snd] in Eb. subst b. assert (a = e_dst e) as -> by (eapply rel_inj; eauto). apply (lookup_none _ _ t Ld). auto.
        + exists ((e_dst e, t) :: m). split; auto. split; [now left|intros z Hz; now right]. }
    destruct B as (m1 & B & B1 & B2). rewrite B. apply IH.
    + intros x Hx. apply Sub. now right.
    + intros a b Hab. destruct (bind_spec _ _ _ _ B) as (_ & _ & _ & B4). destruct (B4 a b Hab) as [H|[-> ->]]; auto.
    + intros a x b E. destruct (Re (e :: a) x b) as [H|[<-|H]]; [rewrite E; reflexivity|left; auto|left; auto|right; auto].
  - exfalso. apply in_map_iff in Hs. destruct Hs as ([a b] & Ea & Hs). cbn [fst] in Ea. subst a. apply (lookup_none _ _ b Ls). auto.
Qed.
Theorem embedding_found : exists m, get_match_map p order c (f (p_root p)) = Some m /\ forall x, In x (c_nodes pc) -> node_map m (fst x) = f (fst x).
Proof.
  assert (Hr : exists x, In x (c_nodes pc) /\ fst x = p_root p). { assert (R := b_root_in _ _ _ Hb). apply in_map_iff in R. destruct R as (x & E & Hx). exists x. split; auto. eapply Permutation_in; eauto. }
  destruct Hr as (xr & Hxr & Er).
  destruct (follow_ok order [(HugrNode (HNode (p_root p)), HugrNode (HNode (f (p_root p))))]) as (m & F & Rm); auto.
  { intros a b [[= <- <-]|[]]. rewrite <- Er. constructor. auto. }
  { apply (o_reached _ _ Ho). }
  assert (Bn : forall x, In x (c_nodes pc) -> lookup m (HugrNode (HNode (fst x))) = Some (HugrNode (HNode (f (fst x))))).
  { intros x Hx. destruct (follow_spec _ _ _ _ F) as (F1 & _ & F3). assert (Hn : In (fst x, encode (snd x)) (p_nodes p)). { rewrite (b_nodes _ _ _ Hb). apply in_map_iff. exists x. split; auto. eapply Permutation_in; [apply Permutation_sym; eauto|auto]. }
    assert (Ex : exists t, lookup m (HugrNode (HNode (fst x))) = Some t).
    { destruct (o_nodes _ _ Ho _ Hn) as [E|H]; cbn [fst] in *.
      - exists (HugrNode (HNode (f (p_root p)))). apply F1. rewrite lookup_cons, E. destruct (node_id_eq_dec _ _); congruence.
      - apply in_map_iff in H. destruct H as (e & E & He). destruct (F3 e He) as (s & t & _ & L & _). exists t. rewrite <- E. auto. }
    destruct Ex as (t & L). rewrite L. f_equal. eapply rel_fun; [apply Rm, lookup_in; eauto|]. constructor. auto. }
  exists m. split.
  - unfold PatModel.get_match_map. rewrite F. assert (A : forallb (fun x => match lookup m (HugrNode (HNode (fst x))) with Some n => validate_node c n (snd x) | None => false end) (p_nodes p) = true); [|rewrite A; reflexivity].
    apply forallb_forall. intros [n o] Hn. rewrite (b_nodes _ _ _ Hb) in Hn. apply in_map_iff in Hn. destruct Hn as (x & [= <- <-] & Hx). assert (Hx' : In x (c_nodes pc)) by (eapply Permutation_in; eauto). cbn [fst snd]. rewrite Bn by auto. cbn [validate_node].
    assert (O := op_of_node c (f (fst x), snd x) nc (e_op Em x Hx')). cbn [fst snd] in O. rewrite O. destruct (match_op_eq_dec _ _); congruence.
  - intros x Hx. unfold node_map. rewrite Bn by auto. reflexivity.
Qed.
End Complete.
End Match.
