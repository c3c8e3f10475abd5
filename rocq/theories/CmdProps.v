(** Properties of command iteration (property C19). *)
From Coq Require Import List Bool Arith Lia.
From Verif Require Import TopoSpec TopoModel TopoProofs CmdSpec CmdModel CmdOrder CmdUnits CmdMain.
Import ListNotations.

(** ** C19: petgraph's walk of a region without cycles is a topological order of it. *)
Theorem C19_walk : forall g outer, region_ok g outer -> (exists l, order_of g l) -> exists l, region_order g = Some l /\ order_of g l.
Proof. exact C19_walk_pf. Qed.

(** ** C19: whatever the topological order, the iteration does not panic and gives a command for
    exactly the operations, and those constants that the region needs, each once and after
    what feeds it; never more than announced. *)
Theorem C19_nodes : forall g outer l, region_ok g outer -> order_of g l ->
  exists cs, commands g outer l = Some cs /\ NoDup (map (fun c => nid (cnode c)) cs) /\ (forall c, In c cs -> In (cnode c) g) /\
    (forall n, In n g -> ((exists c, In c cs /\ cnode c = n) <-> is_io n = false /\ needed g (nid n))) /\
    (forall l1 c l2 m, cs = l1 ++ c :: l2 -> In m g -> is_io m = false -> In (nid m) (preds (cnode c)) -> exists d, In d l1 /\ cnode d = m) /\
    length cs + 2 <= length g.
Proof. exact C19_nodes_pf. Qed.

(** ** C19: linear units are threaded: each linear input of a command has the unit that its wire got
    when it was made, no other command uses the wire before, and the k-th linear output has the unit
    of the k-th linear input. A wire has only one unit. *)
Theorem C19_threading : forall g outer l cs, region_ok g outer -> order_of g l -> commands g outer l = Some cs ->
  forall l1 c l2, cs = l1 ++ c :: l2 ->
    length (cin c) = length (linear_ins (cnode c)) /\ length (cout c) = length (linear_outs (cnode c)) /\
    Forall2 (fun w k => live g l1 w k) (linear_ins (cnode c)) (cin c) /\
    (forall j, j < length (cin c) -> j < length (cout c) -> nth_error (cout c) j = nth_error (cin c) j) /\
    (forall w k k', live g l1 w k -> live g l1 w k' -> k = k').
Proof. exact C19_threading_pf. Qed.

(** ** C19: at any time, the live wires have different units, if no command allocates once one has
    freed. (Missing: commands that allocate after others have freed; see below.) *)
Theorem C19_distinct_partial : forall g outer l cs, region_ok g outer -> order_of g l -> commands g outer l = Some cs ->
  no_alloc_after_free (map cnode cs) -> forall l1 l2, cs = l1 ++ l2 -> forall w w' k, live g l1 w k -> live g l1 w' k -> w = w'.
Proof. exact C19_distinct_partial_pf. Qed.

(** ** C19: otherwise they may not: with two qubits, one of which is freed, a new one gets the unit of
    the one that is left. *)
Theorem C19_distinct_refuted : exists g outer l cs, region_ok g outer /\ order_of g l /\ commands g outer l = Some cs /\
  exists w w' k, live g cs w k /\ live g cs w' k /\ w <> w'.
Proof. exact C19_distinct_refuted_pf. Qed.

(** ** C19: the units of a command's input ports, if the linear ports come first: linear ports have
    the unit of their wire. (Missing: commands with a linear port after another one.) *)
Theorem C19_ports_partial : forall g outer l cs, region_ok g outer -> order_of g l -> commands g outer l = Some cs ->
  forall l1 c l2, cs = l1 ++ c :: l2 -> (exists a b, ins (cnode c) = a ++ b /\ Forall (fun p => fst p = true) a /\ Forall (fun p => fst p = false) b) ->
  exists r, command_inputs c = Some r /\ Forall2 (fun p x => match x with ULinear k => fst p = true /\ live g l1 (snd p) k | UWire w => fst p = false /\ w = snd p end) (ins (cnode c)) r.
Proof. exact C19_ports_partial_pf. Qed.

(** ** C19: likewise for the outputs. *)
Theorem C19_outputs_partial : forall g outer l cs, region_ok g outer -> order_of g l -> commands g outer l = Some cs ->
  forall c, In c cs -> (exists a b, outs (cnode c) = repeat true a ++ repeat false b) ->
  exists r, command_outputs c = Some r /\ length r = length (outs (cnode c)) /\
    forall p, (nth_error (outs (cnode c)) p = Some true -> exists k, nth_error r p = Some (ULinear k) /\ In ((nid (cnode c), p), k) (labels g cs)) /\
              (nth_error (outs (cnode c)) p = Some false -> nth_error r p = Some (UWire (nid (cnode c), p))).
Proof. exact C19_outputs_partial_pf. Qed.

(** ** C19: with a linear port after another one, the port number is used as an index into the linear
    ports, and the call panics. *)
Theorem C19_ports_refuted : forall g outer l cs, region_ok g outer -> order_of g l -> commands g outer l = Some cs -> forall c, In c cs ->
  (forall a w b w' d, ins (cnode c) = a ++ (false, w) :: b ++ (true, w') :: d -> command_inputs c = None) /\
  (forall a b d, outs (cnode c) = a ++ false :: b ++ true :: d -> command_outputs c = None).
Proof. exact C19_ports_refuted_pf. Qed.

(** ** Instances *)
Definition ex_region : list node :=
  [{| nid := 0; ntag := TInput; ins := []; order_in := []; outs := [true; false] |};
   {| nid := 1; ntag := TConst; ins := []; order_in := []; outs := [false] |};
   {| nid := 2; ntag := TConst; ins := [(false, (1, 0))]; order_in := []; outs := [false] |};
   {| nid := 3; ntag := TConst; ins := []; order_in := []; outs := [false] |};
   {| nid := 4; ntag := TOther; ins := []; order_in := []; outs := [true] |};
   {| nid := 5; ntag := TOther; ins := [(true, (4, 0)); (true, (0, 0)); (false, (2, 0))]; order_in := []; outs := [true; true] |};
   {| nid := 6; ntag := TOther; ins := [(false, (0, 1)); (true, (5, 0))]; order_in := []; outs := [true; false] |};
   {| nid := 7; ntag := TOutput; ins := [(true, (6, 0)); (false, (6, 1)); (true, (5, 1))]; order_in := []; outs := [] |}].
Example ex_region_ok : region_ok ex_region [].
Proof.
  split; [simpl; repeat constructor; simpl; intuition discriminate|]. split; [|split; [|split]].
  - exists (nth 0 ex_region (nth 0 ex_region {| nid := 0; ntag := TInput; ins := []; order_in := []; outs := [] |})), (nth 7 ex_region {| nid := 0; ntag := TInput; ins := []; order_in := []; outs := [] |}). simpl. split; [auto|]. split; [tauto|]. repeat (split; [reflexivity|]). split; intros n H T; repeat (destruct H as [<-|H]; [simpl in T; try discriminate; reflexivity|]); destruct H.
  - intros n H T. repeat (destruct H as [<-|H]; [simpl in T; try discriminate; split; reflexivity|]). destruct H.
  - assert (Src : forall w, In w [(0, 0); (4, 0); (5, 0); (5, 1); (6, 0)] -> exists m, In m ex_region /\ In w (linear_outs m)).
    { intros w H. apply (Exists_exists (fun m => In w (linear_outs m))). unfold ex_region. repeat (destruct H as [<-|H]; [repeat (first [apply Exists_cons_hd; simpl; tauto|apply Exists_cons_tl])|]). destruct H. }
    intros n w H W. apply Src. unfold ex_region in H. simpl in H. repeat (destruct H as [<-|H]; [simpl in W; simpl; tauto|]). destruct H.
  - simpl. repeat constructor; simpl; intuition discriminate.
Qed.
Example ex_order : order_of ex_region [0; 1; 2; 3; 4; 5; 6; 7].
Proof.
  split; [repeat constructor; simpl; intuition discriminate|]. split; [simpl; tauto|]. intros l1 n l2 m E Hn Hm.
  repeat (destruct l1 as [|? l1]; simpl in E; [injection E as E1 E2; simpl in Hn; repeat (destruct Hn as [<-|Hn]; [try discriminate E1; simpl in Hm; repeat (destruct Hm as [<-|Hm]; [simpl; intuition (try discriminate; auto)|]); destruct Hm|]); destruct Hn|injection E as <- E]). destruct l1; discriminate E.
Qed.
(** petgraph's walk of this region, and the commands: the constant 3, which nothing uses, is left out. *)
Example ex_walk : exists l cs, region_order ex_region = Some l /\ order_of ex_region l /\ commands ex_region [] l = Some cs /\ map (fun c => (nid (cnode c), cin c, cout c)) cs = [(4, [], [1]); (1, [], []); (2, [], []); (5, [1; 0], [1; 0]); (6, [1], [1])].
Proof.
  destruct (C19_walk ex_region [] ex_region_ok (ex_intro _ _ ex_order)) as (l & E & O). exists l. destruct (C19_nodes ex_region [] l ex_region_ok O) as (cs & Ec & _). exists cs. split; [exact E|]. split; [exact O|]. split; [exact Ec|].
  vm_compute in E. injection E as <-. vm_compute in Ec. injection Ec as <-. reflexivity.
Qed.
Example ex_unused : ~ needed ex_region 3.
Proof.
  intro H. inversion H as [n Hn Cn E|c m Hc Hm P _ E].
  - simpl in Hn. repeat (destruct Hn as [<-|Hn]; [simpl in E; try discriminate E; simpl in Cn; discriminate Cn|]). destruct Hn.
  - rewrite E in P. simpl in Hm. repeat (destruct Hm as [<-|Hm]; [simpl in P; intuition discriminate|]). destruct Hm.
Qed.
(** Nothing is freed in this region: the live units stay distinct. *)
Example ex_distinct : exists cs, commands ex_region [] [0; 1; 2; 3; 4; 5; 6; 7] = Some cs /\ no_alloc_after_free (map cnode cs) /\
  live ex_region cs (6, 0) 1 /\ live ex_region cs (5, 1) 0 /\ forall l1 l2, cs = l1 ++ l2 -> forall w w' k, live ex_region l1 w k -> live ex_region l1 w' k -> w = w'.
Proof.
  eexists. split; [reflexivity|]. match goal with |- no_alloc_after_free (map cnode ?x) /\ _ => set (cs := x) end. assert (NA : no_alloc_after_free (map cnode cs)).
  { intros l1 a l2 f E _ Hf K. assert (H : In f (map cnode cs)) by (rewrite E; apply in_or_app; auto). unfold frees in K. unfold cs in H. simpl in H. repeat (destruct H as [<-|H]; [simpl in K; lia|]). destruct H. }
  split; [assumption|]. split; [|split].
  - split; [simpl; tauto|]. intros c H. unfold cs in H. simpl in H. repeat (destruct H as [<-|H]; [simpl; intuition discriminate|]). destruct H.
  - split; [simpl; tauto|]. intros c H. unfold cs in H. simpl in H. repeat (destruct H as [<-|H]; [simpl; intuition discriminate|]). destruct H.
  - eapply C19_distinct_partial; [exact ex_region_ok|exact ex_order|reflexivity|exact NA].
Qed.
(** The inputs of the gate 5 are given; asking for those of 6 panics. *)
Example ex_ports : exists cs c5 c6, commands ex_region [] [0; 1; 2; 3; 4; 5; 6; 7] = Some cs /\ In c5 cs /\ In c6 cs /\
  command_inputs c5 = Some [ULinear 1; ULinear 0; UWire (2, 0)] /\ command_inputs c6 = None /\ command_outputs c6 = Some [ULinear 1; UWire (6, 1)].
Proof.
  eexists _, _, _. split; [reflexivity|]. split; [right; right; right; left; reflexivity|]. split; [right; right; right; right; left; reflexivity|]. split; [reflexivity|]. split; reflexivity.
Qed.

Print Assumptions C19_walk.
Print Assumptions C19_nodes.
Print Assumptions C19_threading.
Print Assumptions C19_distinct_partial.
Print Assumptions C19_distinct_refuted.
Print Assumptions C19_ports_partial.
Print Assumptions C19_outputs_partial.
Print Assumptions C19_ports_refuted.
