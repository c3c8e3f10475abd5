(** Dataflow regions with linear wires, and what a list of commands should say about them. *)
From Coq Require Import List Bool Arith.
Import ListNotations.

Definition wire : Type := (nat * nat)%type.                   (* node, output port *)
(** [TConst]: a constant or the operation that loads it. *)
Inductive tag : Type := TInput | TOutput | TConst | TOther.
(** [ins]: for each value or constant input whether it is linear, and its source; [order_in]: sources
    of other edges (state order); [outs]: for each output port whether it is linear. *)
Record node : Type := { nid : nat; ntag : tag; ins : list (bool * wire); order_in : list nat; outs : list bool }.
Definition is_const (n : node) : bool := match ntag n with TConst => true | _ => false end.
Definition is_io (n : node) : bool := match ntag n with TInput | TOutput => true | _ => false end.
(** The nodes that feed a node, once per edge. *)
Definition preds (n : node) : list nat := map (fun i => fst (snd i)) (ins n) ++ order_in n.

Definition linear_ins (n : node) : list wire := map snd (filter fst (ins n)).
Fixpoint linear_ports (id p : nat) (l : list bool) : list wire :=
  match l with [] => [] | b :: l => if b then (id, p) :: linear_ports id (S p) l else linear_ports id (S p) l end.
Definition linear_outs (n : node) : list wire := linear_ports (nid n) 0 (outs n).

(** Constants matter if something else in the region needs them. *)
Inductive needed (g : list node) : nat -> Prop :=
  | Needed_op : forall n, In n g -> is_const n = false -> needed g (nid n)
  | Needed_const : forall c m, In c g -> In m g -> In (nid c) (preds m) -> needed g (nid m) -> needed g (nid c).

(** A region with one input and one output node; linear wires come from the region and are used
    once; constants are not linear; [outer]: the rest of the hugr. *)
Definition region_ok (g outer : list node) : Prop :=
  NoDup (map nid (g ++ outer)) /\
  (exists i o, In i g /\ In o g /\ ntag i = TInput /\ ntag o = TOutput /\ ins i = [] /\ outs o = [] /\
     (forall n, In n g -> ntag n = TInput -> n = i) /\ (forall n, In n g -> ntag n = TOutput -> n = o)) /\
  (forall n, In n g -> is_const n = true -> linear_ins n = [] /\ linear_outs n = []) /\
  (forall n w, In n g -> In w (linear_ins n) -> exists m, In m g /\ In w (linear_outs m)) /\
  NoDup (flat_map linear_ins g).
(** A topological order of the region. *)
Definition order_of (g : list node) (l : list nat) : Prop :=
  NoDup l /\ (forall n, In n l <-> In n (map nid g)) /\
  forall l1 n l2 m, l = l1 ++ nid n :: l2 -> In n g -> In m g -> In (nid m) (preds n) -> In (nid m) l1.

(** A command: a node with the units of its linear inputs and outputs. *)
Record command : Type := { cnode : node; cin : list nat; cout : list nat }.
(** The unit of each linear wire: the input's are numbered, others are as the commands say. *)
Definition labels (g : list node) (cmds : list command) : list (wire * nat) :=
  flat_map (fun n => match ntag n with TInput => combine (linear_outs n) (seq 0 (length (linear_outs n))) | _ => [] end) g ++
  flat_map (fun c => combine (linear_outs (cnode c)) (cout c)) cmds.
(** Wires that exist and were not used yet. *)
Definition live (g : list node) (cmds : list command) (w : wire) (u : nat) : Prop :=
  In (w, u) (labels g cmds) /\ forall c, In c cmds -> ~ In w (linear_ins (cnode c)).

(** More linear outputs than inputs, or fewer. *)
Definition allocates (n : node) : Prop := length (linear_ins n) < length (linear_outs n).
Definition frees (n : node) : Prop := length (linear_outs n) < length (linear_ins n).
(** Nothing allocates once something was freed. *)
Definition no_alloc_after_free (l : list node) : Prop :=
  forall l1 a l2 f, l = l1 ++ a :: l2 -> allocates a -> In f l1 -> ~ frees f.
