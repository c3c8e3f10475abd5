(** Properties C57, C58: rewriting at the matches of a pattern. *)
From Coq Require Import List Bool Arith Lia ZArith Permutation.
From Verif Require Import PatSpec PatModel PatProofs PatRewrite PatMatch PatInterp PatCheck PatExamples PatMain.
Import ListNotations.

(** ** C57 *)

(** Take a circuit that becomes a pattern, without containers and with all nodes in the pattern, and a
    replacement with the same typing that computes the same in every place. Whatever valid circuit the pattern is matched in, wherever it matches (and
    the subgraph is accepted): the rewritten circuit is well typed, its nodes can be ordered, linear values are still used at most once, and it
    computes the same. *)
Theorem C57_rewrite_partial : forall ain aout lin lout typed (I : interp optype ain aout lin lout) c pc r d l lp lr fi fo ei eo,
  schedule ain aout lin c l -> schedule ain aout lin pc lp -> schedule ain aout lin r lr ->
  linear_typed ain lin lout c fi fo -> linear_typed ain lin lout pc ei eo -> linear_typed ain lin lout r ei eo ->
  (forall n k data body, ~ In (n, ContainerOp k data body) (c_nodes pc)) ->
  interchangeable I ei pc r -> rewrites_to ain lin typed pc r c d ->
  linear_typed ain lin lout d fi fo /\ (exists m, schedule ain aout lin d m) /\ equivalent I fi c d.
Proof. exact C57_rewrite_partial_pf. Qed.

(** Every place where the pattern circuit occurs, with different values at its inputs, is found: matching from the
    image of the root gives the occurrence, whatever order of the edges is followed. *)
Theorem C57_found : forall ain aout lin (typed : optype -> nat -> bool) c pc commands p order l lp f i,
  schedule ain aout lin c l -> schedule ain aout lin pc lp -> try_from_circuit ain lin typed pc commands = inl p -> Permutation commands (c_nodes pc) ->
  order = p_order p \/ proper p order ->
  embedding ain pc c f i -> (forall k k', k < c_inputs pc -> k' < c_inputs pc -> i k = i k' -> k = k') ->
  exists m, get_match_map ain p order c (f (p_root p)) = Some m /\ forall x, In x (c_nodes pc) -> node_map m (fst x) = f (fst x).
Proof. exact C57_found_pf. Qed.

(** Containers are compared without their contents: a pattern with a container matches a circuit with another one, and the
    replacement changes what is computed. *)
Theorem C57_container_refuted : exists c pc r d,
  (schedule xin xout xlin c (c_nodes c) /\ schedule xin xout xlin pc (c_nodes pc) /\ schedule xin xout xlin r (c_nodes r)) /\
  (linear_typed xin xlin xlout c [false] [false] /\ linear_typed xin xlin xlout pc [false] [false] /\ linear_typed xin xlin xlout r [false] [false]) /\
  interchangeable xgates [false] pc r /\ rewrites_to xin xlin (fun _ _ => true) pc r c d /\ ~ equivalent xgates [false] c d.
Proof. exact C57_container_refuted_pf. Qed.

(** Constants that are defined outside the region are no commands, and are not compared: the pattern of a circuit that computes 1 matches a circuit
    that computes 2. *)
Theorem C57_constant_refuted : exists pc commands p c m,
  schedule xin xout xlin pc (c_nodes pc) /\ schedule xin xout xlin c (c_nodes c) /\
  try_from_circuit xin xlin (fun _ _ => true) pc commands = inl p /\ get_match_map xin p (p_order p) c (p_root p) = Some m /\
  (forall x, In x (c_nodes pc) -> node_map m (fst x) = fst x) /\ c_outs pc = c_outs c /\
  map (xholds (run xgates (map (action_of xin xout pc) (c_nodes pc)) (start 0))) (c_outs pc) = [Bits nat 1] /\
  map (xholds (run xgates (map (action_of xin xout c) (c_nodes c)) (start 0))) (c_outs c) = [Bits nat 2].
Proof. exact C57_constant_refuted_pf. Qed.

(** A value that is used for two inputs of the pattern: the pattern occurs in the circuit, but is not found. *)
Theorem C57_shared_refuted : exists pc p c f i,
  schedule xin xout xlin pc (c_nodes pc) /\ schedule xin xout xlin c (c_nodes c) /\ linear_typed xin xlin xlout c [false] [false] /\
  try_from_circuit xin xlin (fun _ _ => true) pc (c_nodes pc) = inl p /\ embedding xin pc c f i /\ subgraph_ok xin pc c f i = true /\
  forall root, get_match_map xin p (p_order p) c root = None.
Proof. exact C57_shared_refuted_pf. Qed.

(** The function port of a call has no type: making a pattern of a valid circuit with a call panics. *)
Theorem C57_call_refuted : exists (typed : optype -> nat -> bool) pc,
  schedule xin xout xlin pc (c_nodes pc) /\ existsb (fun x => negb (typed (snd x) 0)) (c_nodes pc) = true /\
  try_from_circuit xin xlin typed pc [(1, Load); (2, Copy)] = inr Panic.
Proof. exact C57_call_refuted_pf. Qed.

(** ** C58 *)

(** Any number of rewrites with any rules that compute the same on both sides keeps the circuit valid, well typed and its meaning. *)
Theorem C58_rewritten_partial : forall ain aout lin lout typed (I : interp optype ain aout lin lout) (rules : circuit optype -> circuit optype -> Prop),
  (forall pc r, rules pc r -> (forall n k data body, ~ In (n, ContainerOp k data body) (c_nodes pc)) /\
     exists ei eo lp lr, schedule ain aout lin pc lp /\ schedule ain aout lin r lr /\ linear_typed ain lin lout pc ei eo /\ linear_typed ain lin lout r ei eo /\ interchangeable I ei pc r) ->
  forall c d l fi fo, schedule ain aout lin c l -> linear_typed ain lin lout c fi fo -> rewritten ain lin typed rules c d ->
  linear_typed ain lin lout d fi fo /\ (exists m, schedule ain aout lin d m) /\ equivalent I fi c d.
Proof. exact C58_rewritten_partial_pf. Qed.

(** ** Instances *)

(** Two X gates between two gates of two qubits: the rule that removes them applies, and gives a
    valid circuit of two gates that computes the same. *)
Definition host : circuit optype := {| c_inputs := 2; c_nodes := [(0, CX); (1, X); (2, X); (3, CX)];
  c_src := fun n k => match n, k with 0, k => Inp k | 1, _ => Out 0 0 | 2, _ => Out 1 0 | _, 0 => Out 2 0 | _, _ => Out 0 1 end; c_outs := [Out 3 0; Out 3 1] |}.
Example host_valid : schedule xin xout xlin host (c_nodes host) /\ linear_typed xin xlin xlout host [true; true] [true; true].
Proof. assert (T : linear_typed xin xlin xlout host [true; true] [true; true]) by (apply typed_ok; vm_compute; reflexivity). split; auto. eapply valid_ok; [vm_compute; reflexivity|exact T]. Qed.
Example host_rewrite : exists d, rewrites_to xin xlin (fun _ _ => true) (line [X; X]) (line []) host d /\ c_nodes d = [(0, CX); (3, CX)] /\
  map (c_src d 3) [0; 1] = [Out 0 0; Out 0 1] /\ (forall n k data body, ~ In (n, ContainerOp k data body) (c_nodes (line [X; X]))).
Proof.
  let r := eval vm_compute in (try_from_circuit xin xlin (fun _ _ => true) (line [X; X]) (c_nodes (line [X; X]))) in
  match r with inl ?p => let m := eval vm_compute in (get_match_map xin p (p_order p) host (S (p_root p))) in
    match m with Some ?m => exists (rewrite_match host (line [X; X]) (line []) p m 4);
      assert (E1 : try_from_circuit xin xlin (fun _ _ => true) (line [X; X]) (c_nodes (line [X; X])) = inl p) by (vm_compute; reflexivity);
      assert (E2 : get_match_map xin p (p_order p) host (S (p_root p)) = Some m) by (vm_compute; reflexivity);
      set (pp := p) in *; set (mm := m) in *
    end end.
  split; [|split; [vm_compute; reflexivity|split; [vm_compute; reflexivity|]]].
  - exists (c_nodes (line [X; X])), pp, (p_order pp), (S (p_root pp)), mm, 4. split; [exact E1|]. split; [apply Permutation_refl|]. split; [|split; [|split; [exact E2|split; [|split; [|reflexivity]]]]].
    + intros q Hq. cbn in Hq. destruct Hq as [<-|[]]. discriminate.
    + apply (o_covers _ _ (order_proper _ _ _ _ _ _ (try_built _ _ _ _ _ _ E1))).
    + vm_compute. reflexivity.
    + intros x Hx. cbn in Hx. repeat (destruct Hx as [<-|Hx]; [cbn; lia|]). destruct Hx.
  - intros n k data body H. cbn in H. repeat (destruct H as [[=]|H]). destruct H.
Qed.
Example C57_instance : forall d, rewrites_to xin xlin (fun _ _ => true) (line [X; X]) (line []) host d ->
  linear_typed xin xlin xlout d [true; true] [true; true] /\ (exists m, schedule xin xout xlin d m) /\ equivalent xgates [true; true] host d.
Proof.
  intros d H. destruct host_valid as [Hs Ht]. destruct host_rewrite as (d' & _ & _ & _ & Lf).
  apply (C57_rewrite_partial xin xout xlin xlout (fun _ _ => true) xgates host (line [X; X]) (line []) d (c_nodes host) (c_nodes (line [X; X])) (c_nodes (line [])) [true; true] [true; true] [true] [true]); auto.
  - apply line_schedule. intros o Ho. cbn in Ho. repeat (destruct Ho as [<-|Ho]; [split; reflexivity|]). destruct Ho.
  - apply line_schedule. intros o [].
  - apply typed_ok. vm_compute. reflexivity.
  - apply typed_ok. vm_compute. reflexivity.
  - apply xx_cancel.
Qed.
(** The occurrence is found by [C57_found], and the sequence of rewrites of [C58_rewritten_partial] with this rule is not empty. *)
Example C57_found_instance : embedding xin (line [X; X]) host S (fun _ => Out 0 0) /\ (forall k k', k < 1 -> k' < 1 -> Out 0 0 = Out 0 0 -> k = k').
Proof.
  split; [|lia]. constructor.
  - intros x y Hx Hy E. cbn in Hx, Hy. destruct Hx as [<-|[<-|[]]], Hy as [<-|[<-|[]]]; cbn in E; congruence.
  - intros x Hx. cbn in Hx. destruct Hx as [<-|[<-|[]]]; cbn; auto.
  - intros x k Hx Hk. cbn in Hx. destruct Hx as [<-|[<-|[]]]; cbn in Hk; assert (k = 0) as -> by lia; reflexivity.
Qed.
Example C58_instance : exists d, rewritten xin xlin (fun _ _ => true) (fun pc r => pc = line [X; X] /\ r = line []) host d /\ length (c_nodes d) = 2.
Proof. destruct host_rewrite as (d & R & E & _). exists d. split; [|rewrite E; reflexivity]. eapply rewritten_step; [apply rewritten_start|split; reflexivity|exact R]. Qed.

Print Assumptions C57_rewrite_partial.
Print Assumptions C57_found.
Print Assumptions C57_container_refuted.
Print Assumptions C57_constant_refuted.
Print Assumptions C57_shared_refuted.
Print Assumptions C57_call_refuted.
Print Assumptions C58_rewritten_partial.
