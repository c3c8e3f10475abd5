(** Proofs of the properties C57, C58: rewriting at the matches of a pattern. *)
From Coq Require Import List Bool Arith Lia ZArith Permutation.
From Verif Require Import PatSpec PatModel PatProofs PatRewrite PatMatch PatInterp PatCheck PatExamples.
Import ListNotations.

Lemma C57_rewrite_partial_pf : forall ain aout lin lout typed (I : interp optype ain aout lin lout) c pc r d l lp lr fi fo ei eo,
  schedule ain aout lin c l -> schedule ain aout lin pc lp -> schedule ain aout lin r lr ->
  linear_typed ain lin lout c fi fo -> linear_typed ain lin lout pc ei eo -> linear_typed ain lin lout r ei eo ->
  (forall n k data body, ~ In (n, ContainerOp k data body) (c_nodes pc)) ->
  interchangeable I ei pc r -> rewrites_to ain lin typed pc r c d ->
  linear_typed ain lin lout d fi fo /\ (exists m, schedule ain aout lin d m) /\ equivalent I fi c d.
Proof.
  intros ain aout lin lout typed I c pc r d l lp lr fi fo ei eo Hc Hp Hr Tc Tp Tr Hleaf Hi (commands & p & order & root & m & off & Ht & Pc & Hne & Hcov & Hm & Hs & Hf & ->).
  apply andb_prop in Hs. destruct Hs as [Hcv Hcl]. apply convex_ok in Hcv. apply closed_ok in Hcl.
  assert (Hb := try_built ain lin typed pc commands p Ht).
  assert (Nc : NoDup (map fst (c_nodes c))) by (eapply Permutation_NoDup; [apply Permutation_map, Permutation_sym, (v_perm Hc)|apply (v_ids Hc)]).
  assert (X : replaceable optype ain c pc r (node_map m) (boundary_input c p m) off).
  { constructor; auto.
    - apply (match_embedding ain aout lin typed c pc commands p order root m lp); auto.
    - apply (outputs_wires ain aout lin typed pc commands p lp); auto.
    - apply (inputs_used ain lin typed pc commands p); auto. }
  destruct (replace_valid optype ain aout lin lout c pc r _ _ off l lp lr fi fo ei eo Hc Hp Hr X Tc Tp Tr) as [V1 V2].
  split; [exact V1|]. split; [exact V2|]. eapply replace_equivalent; eauto.
Qed.

Lemma C57_found_pf : forall ain aout lin (typed : optype -> nat -> bool) c pc commands p order l lp f i,
  schedule ain aout lin c l -> schedule ain aout lin pc lp -> try_from_circuit ain lin typed pc commands = inl p -> Permutation commands (c_nodes pc) ->
  order = p_order p \/ proper p order ->
  embedding ain pc c f i -> (forall k k', k < c_inputs pc -> k' < c_inputs pc -> i k = i k' -> k = k') ->
  exists m, get_match_map ain p order c (f (p_root p)) = Some m /\ forall x, In x (c_nodes pc) -> node_map m (fst x) = f (fst x).
Proof.
  intros ain aout lin typed c pc commands p order l lp f i Hc Hp Ht Pc Ho Em Hi. assert (Hb := try_built ain lin typed pc commands p Ht).
  assert (Hpr : proper p order) by (destruct Ho as [->|]; auto; eapply order_proper; eauto). eapply embedding_found; eauto.
Qed.

Lemma C57_container_refuted_pf : exists c pc r d,
  (schedule xin xout xlin c (c_nodes c) /\ schedule xin xout xlin pc (c_nodes pc) /\ schedule xin xout xlin r (c_nodes r)) /\
  (linear_typed xin xlin xlout c [false] [false] /\ linear_typed xin xlin xlout pc [false] [false] /\ linear_typed xin xlin xlout r [false] [false]) /\
  interchangeable xgates [false] pc r /\ rewrites_to xin xlin (fun _ _ => true) pc r c d /\ ~ equivalent xgates [false] c d.
Proof.
  assert (Q : forall os, (forall o, In o os -> xin o = 1 /\ xout o = 1) -> schedule xin xout xlin (line os) (c_nodes (line os))) by apply line_schedule.
  exists (line [Copy; Box 2]), (line [Copy; Box 1]), (line [Box 1]).
  let r := eval vm_compute in (try_from_circuit xin xlin (fun _ _ => true) (line [Copy; Box 1]) (c_nodes (line [Copy; Box 1]))) in
  match r with inl ?p => let m := eval vm_compute in (get_match_map xin p (p_order p) (line [Copy; Box 2]) (p_root p)) in
    match m with Some ?m => exists (rewrite_match (line [Copy; Box 2]) (line [Copy; Box 1]) (line [Box 1]) p m 2);
      assert (E1 : try_from_circuit xin xlin (fun _ _ => true) (line [Copy; Box 1]) (c_nodes (line [Copy; Box 1])) = inl p) by (vm_compute; reflexivity);
      assert (E2 : get_match_map xin p (p_order p) (line [Copy; Box 2]) (p_root p) = Some m) by (vm_compute; reflexivity);
      set (pp := p) in *; set (mm := m) in *
    end end.
  split; [|split; [|split; [|split]]].
  - split; [|split]; apply Q; intros o Ho; cbn in Ho; repeat (destruct Ho as [<-|Ho]; [split; reflexivity|]); destruct Ho.
  - split; [|split]; apply typed_ok; vm_compute; reflexivity.
  - apply copy_box.
  - exists (c_nodes (line [Copy; Box 1])), pp, (p_order pp), (p_root pp), mm, 2. split; [exact E1|]. split; [apply Permutation_refl|]. split; [|split; [|split; [exact E2|split; [|split; [|reflexivity]]]]].
    + intros q Hq. cbn in Hq. destruct Hq as [<-|[]]. discriminate.
    + apply (o_covers _ _ (order_proper _ _ _ _ _ _ (try_built _ _ _ _ _ _ E1))).
    + vm_compute. reflexivity.
    + intros x Hx. cbn in Hx. repeat (destruct Hx as [<-|Hx]; [cbn; lia|]). destruct Hx.
  - intros (_ & _ & H).
    assert (Td : typed_b xin xlin xlout (rewrite_match (line [Copy; Box 2]) (line [Copy; Box 1]) (line [Box 1]) pp mm 2) [false] [false] = true) by (vm_compute; reflexivity).
    assert (Sd : schedule xin xout xlin (rewrite_match (line [Copy; Box 2]) (line [Copy; Box 1]) (line [Box 1]) pp mm 2) (c_nodes (rewrite_match (line [Copy; Box 2]) (line [Copy; Box 1]) (line [Box 1]) pp mm 2))) by (eapply valid_ok; [vm_compute; reflexivity|apply typed_ok; exact Td]).
    specialize (H (c_nodes (line [Copy; Box 2])) _ (start 0) (start 0) (Q [Copy; Box 2] ltac:(intros o Ho; cbn in Ho; repeat (destruct Ho as [<-|Ho]; [split; reflexivity|]); destruct Ho)) Sd).
    assert (H1 : like xgates (map (fun k => (Inp k, Inp k)) (seq 0 (c_inputs (line [Copy; Box 2])))) (start 0) (start 0)).
    { split; [|split]; [reflexivity| |reflexivity]. intros u u' w w' n _ _ E. discriminate. }
    specialize (H H1). assert (H2 : typed_inputs xgates [false] (line [Copy; Box 2]) (fun w => w) (start 0)) by (intros k Hk; cbn in Hk; destruct k; [reflexivity|lia]). specialize (H H2).
    destruct H as (H & _ & _). specialize (H (Out 1 0) (Out 2 0) (or_introl eq_refl)). vm_compute in H. discriminate.
Qed.

Lemma C57_constant_refuted_pf : exists pc commands p c m,
  schedule xin xout xlin pc (c_nodes pc) /\ schedule xin xout xlin c (c_nodes c) /\
  try_from_circuit xin xlin (fun _ _ => true) pc commands = inl p /\ get_match_map xin p (p_order p) c (p_root p) = Some m /\
  (forall x, In x (c_nodes pc) -> node_map m (fst x) = fst x) /\ c_outs pc = c_outs c /\
  map (xholds (run xgates (map (action_of xin xout pc) (c_nodes pc)) (start 0))) (c_outs pc) = [Bits nat 1] /\
  map (xholds (run xgates (map (action_of xin xout c) (c_nodes c)) (start 0))) (c_outs c) = [Bits nat 2].
Proof.
  set (k := fun v => {| c_inputs := 0; c_nodes := [(0, Const v); (1, Load); (2, Copy)]; c_src := fun n _ => Out (pred n) 0; c_outs := [Out 2 0] |}).
  exists (k 1), [(1, Load); (2, Copy)].
  let r := eval vm_compute in (try_from_circuit xin xlin (fun _ _ => true) (k 1) [(1, Load); (2, Copy)]) in
  match r with inl ?p => exists p, (k 2); let m := eval vm_compute in (get_match_map xin p (p_order p) (k 2) (p_root p)) in match m with Some ?m => exists m end end.
  assert (T : forall v, typed_b xin xlin xlout (k v) [] [false] = true) by reflexivity.
  assert (V : forall v, valid_b xin xout (k v) = true) by reflexivity.
  split; [eapply valid_ok; [apply V|apply typed_ok, T]|]. split; [eapply valid_ok; [apply V|apply typed_ok, T]|].
  split; [vm_compute; reflexivity|]. split; [vm_compute; reflexivity|]. split; [|repeat split; vm_compute; reflexivity].
  intros x Hx. cbn in Hx. repeat (destruct Hx as [<-|Hx]; [reflexivity|]). destruct Hx.
Qed.

Lemma C57_shared_refuted_pf : exists pc p c f i,
  schedule xin xout xlin pc (c_nodes pc) /\ schedule xin xout xlin c (c_nodes c) /\ linear_typed xin xlin xlout c [false] [false] /\
  try_from_circuit xin xlin (fun _ _ => true) pc (c_nodes pc) = inl p /\ embedding xin pc c f i /\ subgraph_ok xin pc c f i = true /\
  forall root, get_match_map xin p (p_order p) c root = None.
Proof.
  set (k := fun n => {| c_inputs := n; c_nodes := [(0, Add)]; c_src := fun _ q => Inp (q mod n); c_outs := [Out 0 0] |}).
  exists (k 2). let r := eval vm_compute in (try_from_circuit xin xlin (fun _ _ => true) (k 2) (c_nodes (k 2))) in match r with inl ?p => exists p end.
  exists (k 1), (fun n => n), (fun _ => Inp 0).
  split; [eapply valid_ok; [vm_compute; reflexivity|apply typed_ok with (lout := xlout) (fi := [false; false]) (fo := [false]); vm_compute; reflexivity]|].
  split; [eapply valid_ok; [vm_compute; reflexivity|apply typed_ok with (lout := xlout) (fi := [false]) (fo := [false]); vm_compute; reflexivity]|].
  split; [apply typed_ok; vm_compute; reflexivity|]. split; [vm_compute; reflexivity|]. split; [|split; [vm_compute; reflexivity|]].
  - constructor.
    + intros x y [<-|[]] [<-|[]] _. reflexivity.
    + intros x [<-|[]]. now left.
    + intros x q [<-|[]] Hq. cbn. cbn in Hq. destruct q as [|[|q]]; [reflexivity|reflexivity|lia].
  - intros [|root]; vm_compute; reflexivity.
Qed.

Lemma C57_call_refuted_pf : exists (typed : optype -> nat -> bool) pc,
  schedule xin xout xlin pc (c_nodes pc) /\ existsb (fun x => negb (typed (snd x) 0)) (c_nodes pc) = true /\
  try_from_circuit xin xlin typed pc [(1, Load); (2, Copy)] = inr Panic.
Proof.
  exists (fun o k => match o with OtherOp 1 _ => false | _ => true end), {| c_inputs := 0; c_nodes := [(0, Const 1); (1, Load); (2, Copy)]; c_src := fun n _ => Out (pred n) 0; c_outs := [Out 2 0] |}.
  split; [eapply valid_ok; [vm_compute; reflexivity|apply typed_ok with (lout := xlout) (fi := []) (fo := [false]); vm_compute; reflexivity]|].
  split; vm_compute; reflexivity.
Qed.

Lemma C58_rewritten_partial_pf : forall ain aout lin lout typed (I : interp optype ain aout lin lout) (rules : circuit optype -> circuit optype -> Prop),
  (forall pc r, rules pc r -> (forall n k data body, ~ In (n, ContainerOp k data body) (c_nodes pc)) /\
     exists ei eo lp lr, schedule ain aout lin pc lp /\ schedule ain aout lin r lr /\ linear_typed ain lin lout pc ei eo /\ linear_typed ain lin lout r ei eo /\ interchangeable I ei pc r) ->
  forall c d l fi fo, schedule ain aout lin c l -> linear_typed ain lin lout c fi fo -> rewritten ain lin typed rules c d ->
  linear_typed ain lin lout d fi fo /\ (exists m, schedule ain aout lin d m) /\ equivalent I fi c d.
Proof.
  intros ain aout lin lout typed I rules Hr c d l fi fo Hc Tc R. induction R as [|pc r d e R (T & (m & S) & E) Hru Hs].
  - split; [auto|]. split; [eauto|]. split; [reflexivity|]. split; [reflexivity|]. intros l1 l2 s t H1 H2 L Ti.
    apply (self_like optype ain aout lin lout I); auto.
  - destruct (Hr _ _ Hru) as (Lf & ei & eo & lp & lr & Sp & Sr & Tp & Tr & Hi).
    destruct (C57_rewrite_partial_pf ain aout lin lout typed I d pc r e m lp lr fi fo ei eo) as (T' & S' & E'); auto.
    split; [auto|]. split; [auto|]. apply (equivalent_trans optype ain aout lin lout I c d e fi m); auto.
Qed.

