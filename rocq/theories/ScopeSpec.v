(** What resource paths are, without the algorithm. *)
From Coq Require Import List Arith Relations.
From Verif Require Import ScopeModel.
Import ListNotations.

Section Spec.
Variable g : graph.
Variable nodes : list nat.

(** The port [p] of node [n] has type [t]. *)
Definition has_type (n : nat) (p : port) (t : nat) : Prop :=
  exists ins outs, signature g n = Some (ins, outs) /\ nth_error (match fst p with Incoming => ins | Outgoing => outs end) (snd p) = Some t.
Definition linear (n : nat) (p : port) : Prop := exists t, has_type n p t /\ copyable g t = false.

(** A valid hugr: each incoming port has one source, of the same type; linear values are used exactly once. *)
Record valid : Prop := {
  links : forall n p m i, In (m, i) (targets g n p) <-> source g m i = Some (n, p);
  connected : forall m i t, has_type m (Incoming, i) t -> exists n p, source g m i = Some (n, p) /\ has_type n (Outgoing, p) t;
  targeted : forall m i n p, source g m i = Some (n, p) -> exists t, has_type m (Incoming, i) t;
  used_once : forall n p, linear n (Outgoing, p) -> length (targets g n p) = 1
}.
(** A topological order of the nodes. *)
Definition topological (order : list nat) : Prop :=
  NoDup order /\ (forall n, In n order <-> In n nodes) /\
  forall l1 n l2, order = l1 ++ n :: l2 -> forall p m i, In (m, i) (targets g n p) -> In m nodes -> In m l2.
(** Ports at which values enter. *)
Definition entries (incoming : list (nat * nat)) : Prop :=
  forall n i, In (n, i) incoming -> In n nodes /\ (exists t, has_type n (Incoming, i) t) /\ forall m p, source g n i = Some (m, p) -> ~ In m nodes.

(** How linear values go through nodes: [keeps n j = Some i] if what goes in at [i] comes out at [j]. *)
Variable keeps : nat -> nat -> option nat.
Definition sensible : Prop :=
  (forall n j i, keeps n j = Some i -> linear n (Incoming, i) /\ linear n (Outgoing, j)) /\
  forall n j j' i, keeps n j = Some i -> keeps n j' = Some i -> j = j'.
(** The resources of the inputs of a node, as given to a flow. *)
Definition inputs_of (n : nat) (l : list (option nat)) : Prop :=
  (forall i, linear n (Incoming, i) <-> exists r, nth_error l i = Some (Some r)) /\
  (forall i j r, nth_error l i = Some (Some r) -> nth_error l j = Some (Some r) -> i = j) /\
  (forall ins outs, signature g n = Some (ins, outs) -> length l = length ins).
Definition respects (f : flow) : Prop :=
  forall n l outs, inputs_of n l -> f n l = Some outs -> forall j, nth j outs None = match keeps n j with Some i => nth i l None | None => None end.
Definition supported (flows : list flow) : Prop := forall n l, In n nodes -> inputs_of n l -> exists f, In f flows /\ f n l <> None.

(** One step of a linear value: along a wire, or through a node. *)
Inductive step : nat * port -> nat * port -> Prop :=
  | Across : forall n p m i, In n nodes -> In m nodes -> linear n (Outgoing, p) -> In (m, i) (targets g n p) -> step (n, (Outgoing, p)) (m, (Incoming, i))
  | Through : forall n i j, In n nodes -> keeps n j = Some i -> step (n, (Incoming, i)) (n, (Outgoing, j)).
Definition reaches : nat * port -> nat * port -> Prop := clos_refl_trans_1n _ step.

(** What the documentation of [DefaultResourceFlow] says: linear values go straight through the operations of which
    each linear input or output has a counterpart of the same type. *)
Definition straight (n : nat) : Prop :=
  forall i t, copyable g t = false -> (has_type n (Incoming, i) t <-> has_type n (Outgoing, i) t).
Definition straight_only : Prop := forall n j i, keeps n j = Some i <-> straight n /\ linear n (Outgoing, j) /\ i = j.

(** The result of resource tracking. *)
Definition tracked (st : state) : Prop :=
  (forall n p, In n nodes -> linear n p -> exists r, units st n p = Some (Resource r)) /\
  (forall n i t, In n nodes -> has_type n (Incoming, i) t -> copyable g t = true -> exists w, source g n i = Some w /\ units st n (Incoming, i) = Some (Copyable w)) /\
  (forall n i t, In n nodes -> has_type n (Outgoing, i) t -> copyable g t = true -> units st n (Outgoing, i) = Some (Copyable (n, i))) /\
  (forall n p m q r, In n nodes -> In m nodes -> linear n p -> linear m q -> units st n p = Some (Resource r) ->
     (units st m q = Some (Resource r) <-> reaches (n, p) (m, q) \/ reaches (m, q) (n, p))).
Definition increasing (st : state) : Prop :=
  (forall n k, position st n = Some k -> In n nodes) /\
  (forall n, In n nodes -> (exists s, signature g n = Some s) -> exists k, position st n = Some k) /\
  (forall n p m i, In n nodes -> In m nodes -> In (m, i) (targets g n p) -> exists k l, position st n = Some k /\ position st m = Some l /\ k < l).
(** The nodes in scope that can be reached from [starts] without leaving the scope, along edges of any kind. *)
Definition inside (st : state) (n : nat) : Prop := position st n <> None.
Inductive reachable (st : state) (starts : list (nat * nat)) : nat -> Prop :=
  | First : forall n p m i, In (n, p) starts -> In (m, i) (targets g n p) -> inside st m -> reachable st starts m
  | Next : forall a b, reachable st starts a -> In b (neighbours g a) -> inside st b -> reachable st starts b.
Definition some_reachable (st : state) (starts ends : list (nat * nat)) : Prop := exists e i, In (e, i) ends /\ reachable st starts e.
(** There are no edges but those of values. *)
Definition values_only : Prop := forall n m, In m (neighbours g n) -> exists p i, In (m, i) (targets g n p).
End Spec.
