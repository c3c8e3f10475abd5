(** Properties of resource tracking and of intervals, C42, C43 and C49. *)
From Coq Require Import List Bool Arith Lia Relations.
From Verif Require Import ScopeModel ScopeSpec ScopeProofs ScopeCases ReachProofs IntervalModel IntervalSpec IntervalProofs ScopeMain.
Import ListNotations.

(** ** C43. Resource tracking with the default flow: two linear ports have the same resource if and only if the value
    goes from one to the other, copyable ports have the wires they are at, and positions increase along wires. *)
Theorem C43 :
  forall g nodes keeps incoming order,
    valid g -> straight_only g keeps -> topological g nodes order -> entries g nodes incoming ->
    exists st, compute_circuit_units g nodes [default_flow g] incoming order = Some st /\ tracked g nodes keeps st /\ increasing g nodes st.
Proof. exact C43_pf. Qed.

(** ** C43, for any list of flows that say where linear values go. *)
Theorem C43_flows :
  forall g nodes keeps flows incoming order,
    valid g -> sensible g keeps -> topological g nodes order -> entries g nodes incoming ->
    (forall f, In f flows -> respects g keeps f) -> supported g nodes flows ->
    exists st, compute_circuit_units g nodes flows incoming order = Some st /\ tracked g nodes keeps st /\ increasing g nodes st.
Proof. exact C43_flows_pf. Qed.

(** ** C42. An interval can be made exactly for the two ends of a run of nodes on the path. *)
Theorem C42_new :
  forall g nodes keeps st, valid g -> sensible g keeps -> tracked g nodes keeps st -> increasing g nodes st ->
  forall r a b,
    (forall i, try_new g st r a b = Ok i -> exists l, covers g nodes st i r l /\ hd_error l = Some a /\ exists l', l = l' ++ [b]) /\
    (forall l l', run g nodes st r l -> hd_error l = Some a -> l = l' ++ [b] -> exists i, try_new g st r a b = Ok i /\ covers g nodes st i r l) /\
    try_new g st r a b <> Err Panic.
Proof. exact C42_new_pf. Qed.

(** ** C42. Extension by a node on the path of the interval is exact: it succeeds if and only if the node is in the
    interval or next to it, and then covers the node too. *)
Theorem C42_extend_partial :
  forall g nodes keeps st, valid g -> sensible g keeps -> tracked g nodes keeps st -> increasing g nodes st ->
  forall i r l n, covers g nodes st i r l -> on_path g nodes st r n ->
    (exists i' l' d, try_extend g st i n = Ok (i', d) /\ extends g nodes st r l n l' d /\ covers g nodes st i' r l') \/
    (exists e, try_extend g st i n = Err e /\ e <> Panic /\ forall l' d, ~ extends g nodes st r l n l' d).
Proof. exact C42_extend_partial_pf. Qed.

(** ** C42. Extension by any nodes, one after the other, whether it succeeds or not: the interval is always exactly a run
    of nodes on the path. *)
Theorem C42_history :
  forall g nodes keeps st, valid g -> sensible g keeps -> tracked g nodes keeps st -> increasing g nodes st ->
  forall ns i r l, covers g nodes st i r l ->
    exists l', covers g nodes st (fold_left (fun i n => match try_extend g st i n with Ok (i', _) => i' | Err _ => i end) ns i) r l' /\ incl l l' /\
      forall n, In n l' -> In n l \/ In n ns.
Proof. exact C42_history_pf. Qed.

(** ** C42. Extension never panics and, if it changes the interval, then as it should. *)
Theorem C42_total :
  forall g nodes keeps st, valid g -> sensible g keeps -> tracked g nodes keeps st -> increasing g nodes st ->
  forall i r l n, covers g nodes st i r l ->
    try_extend g st i n <> Err Panic /\ forall i' d, try_extend g st i n = Ok (i', Some d) -> exists l', extends g nodes st r l n l' (Some d) /\ covers g nodes st i' r l'.
Proof. exact C42_total_pf. Qed.

(** ** C42. The nodes of an interval, in order. *)
Theorem C42_nodes :
  forall g nodes keeps st, valid g -> sensible g keeps -> tracked g nodes keeps st -> increasing g nodes st ->
  forall i r l fuel, covers g nodes st i r l -> length nodes <= fuel -> nodes_in_interval g nodes st fuel i = Some l.
Proof. exact C42_nodes_pf. Qed.

(** ** C42 is false of nodes that are not on the path: their position may lie in the interval, and then no error is
    returned, contrary to the documentation of [try_extend]. The measurement of the second
    qubit has a position between the two ends of an interval of the first. *)
Theorem C42_extend_refuted :
  exists st i l n, let g := circuit in
    valid g /\ compute_circuit_units g inner [default_flow g] [(1, 0); (2, 1)] [1; 2; 3; 4; 5; 6] = Some st /\
    covers g inner st i 0 l /\ ~ on_path g inner st 0 n /\ try_extend g st i n = Ok (i, None).
Proof. exact C42_extend_refuted_pf. Qed.

(** ** C49. Reachability: if the answer is yes, there is a path. *)
Theorem C49_sound :
  forall g st starts ends fuel, any_reachable_from g fuel st starts ends = Some true -> some_reachable g st starts ends.
Proof. exact C49_sound_pf. Qed.

(** ** C49. Reachability is exact where all edges are edges of values. *)
Theorem C49_partial :
  forall g nodes st, increasing g nodes st -> values_only g ->
  forall starts ends, exists bound, forall fuel, bound <= fuel ->
    exists b, any_reachable_from g fuel st starts ends = Some b /\ (b = true <-> some_reachable g st starts ends).
Proof. exact C49_partial_pf. Qed.

(** ** C49 is false where there are order edges: the search stops at the largest position of the ends, and positions need
    not increase along order edges. Three gates on one qubit, the last of which is ordered before a gate on the other. *)
Theorem C49_refuted :
  exists g nodes incoming order st starts ends,
    valid g /\ topological g nodes order /\ entries g nodes incoming /\ compute_circuit_units g nodes [default_flow g] incoming order = Some st /\
    (forall a b, In b (neighbours g a) -> In a order -> In b order -> rank_in a order < rank_in b order) /\
    (forall fuel, 10 <= fuel -> any_reachable_from g fuel st starts ends = Some false) /\ some_reachable g st starts ends.
Proof. exact C49_refuted_pf. Qed.

(** ** Instances: the circuit of ScopeCases.v. *)
Example circuit_valid : valid circuit.
Proof. apply check_ok. vm_compute. reflexivity. Qed.
Example circuit_order : topological circuit inner [1; 2; 3; 4; 5; 6] /\ entries circuit inner [(1, 0); (2, 1)].
Proof. split; [apply topo_check_ok; [repeat constructor; simpl; intuition discriminate|vm_compute; reflexivity]|apply entry_check_ok; vm_compute; reflexivity]. Qed.
Example circuit_straight : straight_only circuit (default_keeps circuit).
Proof. exact (default_keeps_iff circuit). Qed.
Example circuit_flows : sensible circuit (default_keeps circuit) /\ respects circuit (default_keeps circuit) (default_flow circuit) /\ supported circuit inner [default_flow circuit].
Proof. split; [apply default_sensible; exact circuit_straight|]. split; [apply default_respects; exact circuit_straight|apply default_supported]. Qed.
Definition computed : state := match compute_circuit_units circuit inner [default_flow circuit] [(1, 0); (2, 1)] [1; 2; 3; 4; 5; 6] with Some st => st | None => initial end.
Example computed_ok : tracked circuit inner (default_keeps circuit) computed /\ increasing circuit inner computed.
Proof. destruct (C43 circuit inner _ [(1, 0); (2, 1)] [1; 2; 3; 4; 5; 6] circuit_valid circuit_straight (proj1 circuit_order) (proj2 circuit_order)) as (st & E & T & I). unfold computed. rewrite E. auto. Qed.
(** The resources at the inputs and outputs of CX, of the rotation and of the last operation; positions. *)
Example computed_units :
  map (units computed 2) [(Incoming, 0); (Incoming, 1); (Outgoing, 0); (Outgoing, 1)] = [Some (Resource 0); Some (Resource 1); Some (Resource 0); Some (Resource 1)] /\
  map (units computed 5) [(Incoming, 0); (Incoming, 1); (Outgoing, 0)] = [Some (Resource 0); Some (Copyable (4, 0)); Some (Resource 0)] /\
  map (units computed 6) [(Incoming, 0); (Incoming, 1); (Outgoing, 0); (Outgoing, 1)] = [Some (Resource 0); Some (Resource 1); Some (Copyable (6, 0)); Some (Resource 2)] /\
  map (position computed) inner = [Some 0; Some 1; Some 2; Some 3; Some 4; Some 5].
Proof. vm_compute. auto. Qed.
(** An interval, extended both ways. *)
Example interval_on_first :
  exists i, try_new circuit computed 0 2 2 = Ok i /\
    (forall ns, ns = [5; 1; 6] -> nodes_in_interval circuit inner computed 6 (fold_left (fun i n => match try_extend circuit computed i n with Ok (i', _) => i' | Err _ => i end) ns i) = Some [1; 2; 5; 6]) /\
    try_extend circuit computed i 6 = Err (NotContiguous 6).
Proof. eexists. split; [vm_compute; reflexivity|]. split; [intros ns ->; vm_compute; reflexivity|vm_compute; reflexivity]. Qed.
Example circuit_values_only : values_only circuit.
Proof.
  intros n m J. unfold circuit, make in J. cbn [neighbours] in J. rewrite app_nil_r in J. apply in_map_iff in J. destruct J as ([[a b] [c d]] & <- & J). apply filter_In in J. destruct J as [J F]. simpl in F. apply Nat.eqb_eq in F. subst a.
  exists b, d. simpl. unfold find_targets. apply in_map_iff. exists ((n, b), (c, d)). split; [reflexivity|]. apply filter_In. split; [exact J|]. apply pair_eqb_iff. reflexivity.
Qed.
Example reach_yes : any_reachable_from circuit 20 computed [(2, 1)] [(5, 0)] = Some true /\ any_reachable_from circuit 20 computed [(5, 0)] [(3, 0)] = Some false.
Proof. vm_compute. auto. Qed.

Print Assumptions C42_new.
Print Assumptions C42_extend_partial.
Print Assumptions C42_history.
Print Assumptions C42_total.
Print Assumptions C42_nodes.
Print Assumptions C42_extend_refuted.
Print Assumptions C43.
Print Assumptions C43_flows.
Print Assumptions C49_sound.
Print Assumptions C49_partial.
Print Assumptions C49_refuted.
