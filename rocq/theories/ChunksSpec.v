(** Vocabulary for splitting and reassembling circuits.

    A circuit is a list of nodes in a topological order; each node has an operation and the list
    of wires its input ports read; a wire is an output port of the circuit input or of a node. *)
From Coq Require Import List Arith ZArith.
Import ListNotations.

Section Spec.
Variable op : Type.

Inductive source : Type := SIn (port : nat) | SOut (node port : nat).
Inductive target : Type := TNode (node port : nat) | TOut (port : nat).

Record graph : Type := {
  g_ops : list op;                        (* the nodes, in the order of insertion *)
  g_edges : list (source * target) }.

(** Exactly one edge enters [t], and it comes from [s]. *)
Definition reads (edges : list (source * target)) (t : target) (s : source) : Prop :=
  forall s', In (s', t) edges <-> s' = s.

(** Values. [sem] interprets an operation; a node's outputs are computed from what its inputs
    read. [value] looks a source up among the circuit inputs and the nodes' outputs. *)
Variable V : Type.
Variable sem : op -> list V -> list V.
Definition value (ins : list V) (store : list (list V)) (s : source) : option V :=
  match s with
  | SIn i => nth_error ins i
  | SOut n p => match nth_error store n with Some vs => nth_error vs p | None => None end
  end.

(** The graph is a circuit that computes [outs] from [ins]: every input port of every node and
    every output port is connected to exactly one source, nodes read only earlier nodes, and
    node values are as the operations say. [arity n] is the number of inputs of node n. *)
Definition computes (g : graph) (arity : list nat) (ins outs : list V) : Prop :=
  length arity = length (g_ops g) /\
  exists store : list (list V), length store = length (g_ops g) /\
    (forall n o a, nth_error (g_ops g) n = Some o -> nth_error arity n = Some a ->
       exists vals, length vals = a /\ nth_error store n = Some (sem o vals) /\
         forall p v, nth_error vals p = Some v -> exists s, reads (g_edges g) (TNode n p) s /\
           value ins store s = Some v /\ match s with SIn _ => True | SOut n' _ => n' < n end) /\
    (forall p v, nth_error outs p = Some v -> exists s, reads (g_edges g) (TOut p) s /\ value ins store s = Some v).

(** A chunk as a straight-line program: inputs by position, nodes reading chunk inputs or outputs
    of earlier nodes of the chunk, and the sources of its outputs. *)
Inductive csrc : Type := FromIn (i : nat) | FromNode (k port : nat).
Record body : Type := { b_nodes : list (op * list csrc); b_outs : list csrc }.

Definition cvalue (ins : list V) (acc : list (list V)) (s : csrc) : option V :=
  match s with
  | FromIn i => nth_error ins i
  | FromNode k p => match nth_error acc k with Some vs => nth_error vs p | None => None end
  end.
Fixpoint all_some {A : Type} (l : list (option A)) : option (list A) :=
  match l with
  | [] => Some []
  | Some x :: r => match all_some r with Some xs => Some (x :: xs) | None => None end
  | None :: _ => None
  end.
(** Values of the nodes of a body, in order. *)
Fixpoint run_nodes (ins : list V) (acc : list (list V)) (nodes : list (op * list csrc)) : option (list (list V)) :=
  match nodes with
  | [] => Some acc
  | (o, ss) :: rest =>
      match all_some (map (cvalue ins acc) ss) with
      | Some vs => run_nodes ins (acc ++ [sem o vs]) rest
      | None => None
      end
  end.
Definition run_body (b : body) (ins : list V) : option (list V) :=
  match run_nodes ins [] (b_nodes b) with
  | Some acc => all_some (map (cvalue ins acc) (b_outs b))
  | None => None
  end.

(** Chunks run one after the other on named values: each reads the names of its inputs and
    defines the names of its outputs. *)
Definition name : Type := (nat * nat)%type.
Definition name_eqb (a b : name) : bool := Nat.eqb (fst a) (fst b) && Nat.eqb (snd a) (snd b).
Definition env : Type := list (name * V).
Definition get (e : env) (w : name) : option V := option_map snd (find (fun x => name_eqb (fst x) w) e).
(** A circuit: commands in order with the wires they read, and the wires the output reads. Port p
    of the circuit input is (0, p), port p of command k is (k + 1, p). *)
Record circuit : Type := { cir_nodes : list (op * list name); cir_outs : list name }.
Definition wire_source (w : name) : source := match fst w with 0 => SIn (snd w) | S k => SOut k (snd w) end.
(** The connections of a circuit. *)
Definition circuit_edge (c : circuit) (s : source) (t : target) : Prop :=
  match t with
  | TNode k p => exists o ws w, nth_error (cir_nodes c) k = Some (o, ws) /\ nth_error ws p = Some w /\ s = wire_source w
  | TOut p => exists w, nth_error (cir_outs c) p = Some w /\ s = wire_source w
  end.
(** Commands read only circuit inputs and outputs of earlier commands, with ports in range. *)
Definition available (n_outs : op -> nat) (n_in : nat) (c : circuit) (k : nat) (w : name) : Prop :=
  match fst w with
  | 0 => snd w < n_in
  | S j => j < k /\ exists o ws, nth_error (cir_nodes c) j = Some (o, ws) /\ snd w < n_outs o
  end.
Definition circuit_wf (n_outs : op -> nat) (n_in : nat) (c : circuit) : Prop :=
  (forall k o ws w, nth_error (cir_nodes c) k = Some (o, ws) -> In w ws -> available n_outs n_in c k w) /\
  (forall w, In w (cir_outs c) -> available n_outs n_in c (length (cir_nodes c)) w).
(** No group of commands reads the same wire from outside twice. *)
Definition outside_reads (c : circuit) (start len : nat) : list name :=
  filter (fun w => if start <? fst w then start + len <? fst w else true) (flat_map snd (firstn len (skipn start (cir_nodes c)))).
Fixpoint reads_once (c : circuit) (start : nat) (sizes : list nat) : Prop :=
  match sizes with
  | [] => True
  | len :: rest => NoDup (outside_reads c start len) /\ reads_once c (start + len) rest
  end.
(** Running the commands in order. *)
Fixpoint run_commands (ins : list V) (store : list (list V)) (nodes : list (op * list name)) : option (list (list V)) :=
  match nodes with
  | [] => Some store
  | (o, ws) :: rest =>
      match all_some (map (fun w => value ins store (wire_source w)) ws) with
      | Some vs => run_commands ins (store ++ [sem o vs]) rest
      | None => None
      end
  end.
Definition run_circuit (c : circuit) (ins : list V) : option (list V) :=
  match run_commands ins [] (cir_nodes c) with
  | Some store => all_some (map (fun w => value ins store (wire_source w)) (cir_outs c))
  | None => None
  end.
Record named_chunk : Type := { c_body : body; c_ins : list name; c_outs : list name }.
(** Chunks with the same interface that compute the same. *)
Definition replaces (a b : named_chunk) : Prop :=
  c_ins b = c_ins a /\ c_outs b = c_outs a /\ length (b_outs (c_body b)) = length (b_outs (c_body a)) /\
  forall vs outs, run_body (c_body a) vs = Some outs -> run_body (c_body b) vs = Some outs.

Fixpoint run_chunks (cs : list named_chunk) (e : env) : option env :=
  match cs with
  | [] => Some e
  | c :: rest =>
      match all_some (map (get e) (c_ins c)) with
      | None => None
      | Some vs =>
          match run_body (c_body c) vs with
          | None => None
          | Some outs => run_chunks rest (combine (c_outs c) outs ++ e)
          end
      end
  end.

End Spec.
