(** Properties of regions that are turned into dataflow graphs. *)
From Coq Require Import List Bool Arith Lia.
From Verif Require Import XdfgModel XdfgSpec XdfgProofs XdfgMain.
Import ListNotations.

(** ** C105: turning a block into a dataflow graph drops the empty tag and keeps the outputs *)

(** The new output node gets what the old one had after the tag, in order, with the order edge;
    every other link stays, and so does every other node. *)
Theorem C105_outputs_partial : forall g input output tag rest f order x,
  tagged g input output tag rest f order -> unused x g ->
  exists g', remove_empty_tuple input output x g = Changed g' rest
    /\ get_op x (g_nodes g') = Some (XOutput rest)
    /\ (forall p, p < length rest -> linked_outputs g' x p = [f p])
    /\ linked_outputs g' x (length rest) = order
    /\ (forall l, fst (snd l) <> x -> (In l (g_links g') <->
          In l (g_links g) /\ fst (fst l) <> output /\ fst (fst l) <> tag
          /\ fst (snd l) <> output /\ fst (snd l) <> tag))
    /\ (forall n, n <> output -> n <> tag -> n <> x -> get_op n (g_nodes g') = get_op n (g_nodes g)).
Proof. exact C105_outputs_partial_pf. Qed.

(** The graph is left as it is just when there are outputs and the first is not a unit sum, or
    does not come from a tag alone. *)
Theorem C105_same : forall g input output x t tys,
  get_op output (g_nodes g) = Some (XOutput (t :: tys)) ->
  (remove_empty_tuple input output x g = Same
   <-> ~ (t = UnitSum /\ exists tag q, linked_outputs g output 0 = [(tag, q)]
            /\ get_op tag (g_nodes g) = Some XTag)).
Proof. exact C105_same_pf. Qed.

(** Two order edges to the output node make it panic. *)
Theorem C105_order_refuted : forall g input output tag q rest f order x,
  get_op output (g_nodes g) = Some (XOutput (UnitSum :: rest)) ->
  get_op tag (g_nodes g) = Some XTag -> linked_outputs g output 0 = [(tag, q)] ->
  (forall p, p < length rest -> linked_outputs g output (S p) = [f p]) ->
  linked_outputs g output (S (length rest)) = order -> length order >= 2 ->
  (exists o, get_op input (g_nodes g) = Some o) -> input <> output -> input <> tag -> unused x g ->
  remove_empty_tuple input output x g = Panic.
Proof. exact C105_order_refuted_pf. Qed.

(** If the tag is used elsewhere too, that use loses its source. *)
Theorem C105_shared_refuted : forall g input output tag rest f order x q m i,
  tagged g input output tag rest f order -> unused x g ->
  linked_outputs g m i = [(tag, q)] -> m <> output -> m <> tag -> m <> x ->
  exists g', remove_empty_tuple input output x g = Changed g' rest /\ linked_outputs g' m i = []
    /\ get_op m (g_nodes g') = get_op m (g_nodes g).
Proof. exact C105_shared_refuted_pf. Qed.

(** The parent gets as many output ports as it has inputs: wrong if it has another number of
    outputs. *)
Theorem C105_ports_refuted : forall g input output tag rest f order x ins outs,
  tagged g input output tag rest f order -> unused x g -> length ins <> length rest ->
  exists i o ni no g', into_dfg ins outs input output x g = Some (i, o, (ni, no), g')
    /\ ni = length i + 1 /\ o = rest /\ no <> length o + 1.
Proof. exact C105_ports_refuted_pf. Qed.

(** ** Instances: the hypotheses are met *)
Definition block : graph :=
  {| g_nodes := [(1, XInput); (2, XOutput [UnitSum; Ty 4; Ty 5]); (3, XTag); (6, XOther); (7, XOther)];
     g_links := [((3, 0), (2, 0)); ((6, 1), (2, 1)); ((1, 0), (2, 2)); ((7, 0), (2, 3));
                 ((1, 1), (6, 0)); ((3, 0), (7, 0))] |}.
Example tagged_instance :
  tagged block 1 2 3 [Ty 4; Ty 5] (fun p => match p with 0 => (6, 1) | _ => (1, 0) end) [(7, 0)]
  /\ unused 9 block.
Proof.
  split.
  - constructor; try reflexivity.
    + eexists. reflexivity.
    + intros [ | [ | p ] ] hp; [ reflexivity | reflexivity | simpl in hp; lia ].
    + intros s [ (p & hp & ->) | [ <- | [] ] ].
      * destruct p; simpl; (split; [ discriminate | split; [ discriminate | eexists; reflexivity ] ]).
      * simpl. split; [ discriminate | split; [ discriminate | eexists; reflexivity ] ].
    + split; [ eexists; reflexivity | split; discriminate ].
  - split; [ reflexivity | ]. intros l hl. simpl in hl.
    repeat (destruct hl as [ <- | hl ]; [ split; discriminate | ]). destruct hl.
Qed.
Example changed_instance : remove_empty_tuple 1 2 9 block
  = Changed {| g_nodes := [(1, XInput); (9, XOutput [Ty 4; Ty 5]); (6, XOther); (7, XOther)];
               g_links := [((1, 1), (6, 0)); ((6, 1), (9, 0)); ((1, 0), (9, 1)); ((7, 0), (9, 2))] |}
      [Ty 4; Ty 5].
Proof. reflexivity. Qed.
Example shared_instance : linked_outputs block 7 0 = [(3, 0)].
Proof. reflexivity. Qed.
Example order_instance :
  let g := {| g_nodes := g_nodes block; g_links := g_links block ++ [((6, 2), (2, 3))] |} in
  linked_outputs g 2 3 = [(7, 0); (6, 2)] /\ remove_empty_tuple 1 2 9 g = Panic.
Proof. split; reflexivity. Qed.
Example same_instance :
  remove_empty_tuple 1 2 9 {| g_nodes := g_nodes block; g_links := g_links block ++ [((6, 2), (2, 0))] |}
  = Same.
Proof. reflexivity. Qed.
Example ports_instance :
  option_map (fun r => snd (fst r)) (into_dfg [Ty 4] [UnitSum; Ty 4; Ty 5] 1 2 9 block) = Some (2, 2).
Proof. reflexivity. Qed.

Print Assumptions C105_outputs_partial.
Print Assumptions C105_order_refuted.
Print Assumptions C105_shared_refuted.
Print Assumptions C105_ports_refuted.
Print Assumptions C105_same.
