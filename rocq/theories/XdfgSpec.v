(** Vocabulary: blocks whose first output is an empty tag. *)
From Coq Require Import List Bool Arith.
From Verif Require Import XdfgModel.
Import ListNotations.

(** A block: each type of the output node has a source, the first is a tag that is used nowhere
    else; the sources are nodes of the region; there is at most one order edge to the output. *)
Record tagged (g : graph) (input output tag : nat) (rest : list ty) (f : nat -> port)
  (order : list port) : Prop := {
  t_out : get_op output (g_nodes g) = Some (XOutput (UnitSum :: rest));
  t_tag : get_op tag (g_nodes g) = Some XTag;
  t_first : exists q, linked_outputs g output 0 = [(tag, q)];
  t_rest : forall p, p < length rest -> linked_outputs g output (S p) = [f p];
  t_order : linked_outputs g output (S (length rest)) = order;
  t_one : length order <= 1;
  t_src : forall s, (exists p, p < length rest /\ s = f p) \/ In s order ->
            fst s <> tag /\ fst s <> output /\ exists o, get_op (fst s) (g_nodes g) = Some o;
  t_in : (exists o, get_op input (g_nodes g) = Some o) /\ input <> output /\ input <> tag;
}.

(** A number that is not used. *)
Definition unused (x : nat) (g : graph) : Prop :=
  get_op x (g_nodes g) = None
  /\ forall l, In l (g_links g) -> fst (fst l) <> x /\ fst (snd l) <> x.
