(** Vocabulary for the properties of modified regions: well formed regions, what the wires of
    a region carry, and the gates it performs.  Only the data types of the model are used. *)
From Coq Require Import List Arith Bool Permutation.
From Verif Require Import OpsModel ResolveModel ResolveSpec DfgModel.
Import ListNotations.

(** ** Ports and edges *)

(** Rows of an operation. *)
Definition op_ins (o : op) : list bool :=
  match o with
  | Gate g _ n => repeat true (n + gop_qubits g) ++ repeat false (gop_angles g)
  | Copied _ ins _ => ins
  end.
Definition op_outs (o : op) : list bool :=
  match o with
  | Gate g _ n => repeat true (n + gop_qubits g)
  | Copied _ _ outs => outs
  end.

(** [target g t b]: the input port [t] exists and has type [b]; [source]: likewise for output
    ports.  The output node has input ports only. *)
Definition target (g : graph) (t : node * nat) (b : bool) : Prop :=
  match fst t with
  | Inp => False
  | Outp => nth_error (g_outs g) (snd t) = Some b
  | Nd k => exists o, In (k, o) (g_nodes g) /\ nth_error (op_ins o) (snd t) = Some b
  end.
Definition source (g : graph) (s : node * nat) (b : bool) : Prop :=
  match fst s with
  | Inp => nth_error (g_ins g) (snd s) = Some b
  | Outp => False
  | Nd k => exists o, In (k, o) (g_nodes g) /\ nth_error (op_outs o) (snd s) = Some b
  end.

(** A well formed region: edges join ports of the same type, each input port has one edge,
    and each output port of a quantum type has one edge. *)
Record wf (g : graph) : Prop := {
  wf_nodes : NoDup (map fst (g_nodes g));
  wf_typed : forall s t, In (s, t) (g_edges g) -> exists b, source g s b /\ target g t b;
  wf_once : NoDup (map snd (g_edges g));
  wf_fed : forall t b, target g t b -> exists s, In (s, t) (g_edges g);
  wf_used : forall s, source g s true -> exists t, In (s, t) (g_edges g);
  wf_linear : forall s t t', source g s true -> In (s, t) (g_edges g) -> In (s, t') (g_edges g) -> t = t'
}.

(** An order of the nodes which the edges respect. *)
Definition before (l : list nat) (a b : nat) : Prop := exists x y z, l = x ++ a :: y ++ b :: z.
Definition topological (g : graph) (order : list nat) : Prop :=
  Permutation order (map fst (g_nodes g)) /\
  forall a i b j, In ((Nd a, i), (Nd b, j)) (g_edges g) -> before order a b.

(** The regions that are modified here: unitary gates without dagger and controls, and
    operations on classical values. *)
Definition flat (g : graph) : Prop :=
  forall k o, In (k, o) (g_nodes g) ->
    match o with
    | Gate g d n => d = false /\ n = 0 /\ match g with Tk t => is_quantum t = true | Ph => True end
    | Copied _ ins outs => (forall b, In b (ins ++ outs) -> b = false)
    end.

(** Rows to which a dagger can be applied (see C29). *)
Definition reversible_rows (ins outs : list bool) : Prop :=
  runs (fun b => b) ins = runs (fun b => b) outs \/
  exists others, ins = outs ++ others /\ forall b, In b others -> b = false.

(** ** What wires carry *)

(** Exchanging neighbours in a list, unless they are related. *)
Inductive swaps {A : Type} (R : A -> A -> Prop) : list A -> list A -> Prop :=
| swaps_refl : forall l, swaps R l l
| swaps_step : forall x a b y l, ~ R a b -> swaps R (x ++ b :: a :: y) l -> swaps R (x ++ a :: b :: y) l.

Section Values.
Variable V : Type.
(** The [j]-th output of an operation on classical values. *)
Variable cl : nat -> list V -> nat -> V.

(** A wire of a quantum type carries a qubit, which has a name; others a classical value. *)
Inductive value := Qb (q : nat) | Cl (v : V).

Definition of_type (b : bool) (x : value) : Prop :=
  match x with Qb _ => b = true | Cl _ => b = false end.

(** [carries]: what each output port carries.  The input port of an edge carries the same. *)
Definition arrives (g : graph) (val : node * nat -> value) (t : node * nat) (x : value) : Prop :=
  exists s, In (s, t) (g_edges g) /\ val s = x.

Record carries (g : graph) (ins outs : list value) (val : node * nat -> value) : Prop := {
  ca_typed : forall s b, source g s b -> of_type b (val s);
  ca_ins : length ins = length (g_ins g) /\
           forall i x, nth_error ins i = Some x -> val (Inp, i) = x;
  ca_outs : length outs = length (g_outs g) /\
            forall j x, nth_error outs j = Some x -> arrives g val (Outp, j) x;
  (* A gate gives back its controls and its qubits in order. *)
  ca_gate : forall k o d n, In (k, Gate o d n) (g_nodes g) -> forall i, i < n + gop_qubits o ->
            arrives g val (Nd k, i) (val (Nd k, i));
  ca_copied : forall k l ins outs, In (k, Copied l ins outs) (g_nodes g) ->
            exists vs, length vs = length ins /\
              (forall i v, nth_error vs i = Some v -> arrives g val (Nd k, i) (Cl v)) /\
              (forall j, j < length outs -> val (Nd k, j) = Cl (cl l vs j))
}.

(** ** The gates of a region *)

(** A gate that is performed: with dagger or not, its controls, its qubits and its angle. *)
Inductive event := Ev (g : gop) (d : bool) (cs ts : list nat) (a : option V).

Definition is_event (g : graph) (val : node * nat -> value) (k : nat) (e : event) : Prop :=
  match e with
  | Ev o d cs ts a =>
      In (k, Gate o d (length cs)) (g_nodes g) /\ length ts = gop_qubits o /\
      (forall i q, nth_error (cs ++ ts) i = Some q -> arrives g val (Nd k, i) (Qb q)) /\
      match a with
      | None => gop_angles o = 0
      | Some v => gop_angles o = 1 /\ arrives g val (Nd k, length cs + gop_qubits o) (Cl v)
      end
  end.

(** The gates in the given order of nodes. *)
Inductive trace (g : graph) (val : node * nat -> value) : list nat -> list event -> Prop :=
| trace_nil : trace g val [] []
| trace_gate : forall k l e es, is_event g val k e -> trace g val l es -> trace g val (k :: l) (e :: es)
| trace_copied : forall k l lab ins outs es, In (k, Copied lab ins outs) (g_nodes g) ->
    trace g val l es -> trace g val (k :: l) es.

(** Gates which act on a common qubit. *)
Definition qubits_of (e : event) : list nat := match e with Ev _ _ cs ts _ => cs ++ ts end.
Definition share (e f : event) : Prop := exists q, In q (qubits_of e) /\ In q (qubits_of f).

(** ** What a modification should do *)

(** A gate with dagger [d] and the controls [cs]. *)
Definition modified_event (d : bool) (cs : list nat) (e : event) : event :=
  match e with Ev o d' cs' ts a => Ev o (xorb d d') (cs ++ cs') ts a end.
Definition modified_events (d : bool) (cs : list nat) (es : list event) : list event :=
  map (modified_event d cs) (if d then rev es else es).

(** Values on the rows of the daggered region: classical values stay, the qubits of the k-th
    quantum input and the k-th quantum output are exchanged. *)
Definition exchanged (rin rout : list bool) (ins outs ins' outs' : list value) : Prop :=
  length ins' = length ins /\ length outs' = length outs /\
  (forall i, nth_error rin i = Some false -> nth_error ins' i = nth_error ins i) /\
  (forall j, nth_error rout j = Some false -> nth_error outs' j = nth_error outs j) /\
  (forall i j, counterpart (fun b => b) rin i rout j ->
     nth_error ins' i = nth_error outs j /\ nth_error outs' j = nth_error ins i).

Definition names (l : list value) : list nat :=
  flat_map (fun x => match x with Qb q => [q] | Cl _ => [] end) l.
End Values.

Arguments Qb {V}.
Arguments Cl {V}.
Arguments Ev {V}.
Arguments of_type {V}.
Arguments arrives {V}.
Arguments carries {V}.
Arguments is_event {V}.
Arguments trace {V}.
Arguments qubits_of {V}.
Arguments share {V}.
Arguments modified_event {V}.
Arguments modified_events {V}.
Arguments exchanged {V}.
Arguments names {V}.
