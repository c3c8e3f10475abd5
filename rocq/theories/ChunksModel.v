(** Model of circuit splitting, tket/src/passes/chunks.rs. *)
From Coq Require Import List Bool Arith ZArith.
From Verif Require Import CostModel ChunksSpec.
Import ListNotations.
Open Scope nat_scope.

(** *** Grouping *)

Section Split.
Variables (N : nat) (max_cost : list Z).
(** chunks.rs:284-295: the key closure, with its captured [running_cost] and [current_group],
    called on the commands in order. *)
Fixpoint keys (running : list Z) (group : nat) (costs : list (list Z)) : list nat :=
  match costs with
  | [] => []
  | c :: rest =>
      let new_cost := cost_add running c in
      if (0 <? as_isize (sub_cost new_cost max_cost))%Z
      then S group :: keys (cost_default N) (S group) rest
      else group :: keys new_cost group rest
  end.
(** Itertools::chunk_by: maximal runs of elements with the same key. *)
Fixpoint chunk_by {A : Type} (l : list (nat * A)) : list (list A) :=
  match l with
  | [] => []
  | (k, x) :: rest =>
      match hd_error (map fst rest), chunk_by rest with
      | Some k', g :: gs => if Nat.eqb k k' then (x :: g) :: gs else [x] :: g :: gs
      | _, _ => [[x]]
      end
  end.
(** chunks.rs:262-306, split_with_cost: the groups of commands. *)
Definition split_groups {A : Type} (op_cost : A -> list Z) (commands : list A) : list (list A) :=
  chunk_by (combine (keys (cost_default N) 0 (map op_cost commands)) commands).
End Split.
(** chunks.rs:255-257, split: cost 1 per command, bound max_size - 1 (saturating). *)
Definition split_by_size {A : Type} (max_size : Z) (commands : list A) : list (list A) :=
  split_groups 1 [Z.max 0 (max_size - 1)] (fun _ => [1%Z]) commands.

(** *** Extraction *)

Section Chunks.
Variable op : Type.
Variable n_outs : op -> nat.
Notation named_chunk := (named_chunk op).
Notation body := (body op).

Notation circuit := (circuit op).
Notation cir_nodes := (cir_nodes op).
Notation cir_outs := (cir_outs op).

Definition indexed {A : Type} (l : list A) : list (nat * A) := combine (seq 0 (length l)) l.

(** chunks.rs:52-93, Chunk::extract, for the commands [start], ..., [start + len - 1].
    HUGR's SiblingSubgraph::try_from_nodes makes every edge that enters the node set an input of
    its own, in the order of nodes and ports, and every output port linked to a node outside an
    output. *)
Definition inside (start len : nat) (w : name) : bool := (start <? fst w) && (fst w <=? start + len).
Definition group_reads (nodes : list (op * list name)) : list name := flat_map snd nodes.
Fixpoint extract_ports (start len : nat) (next_input : nat) (ws : list name) : list csrc * nat :=
  match ws with
  | [] => ([], next_input)
  | w :: rest =>
      if inside start len w then
        let (r, n) := extract_ports start len next_input rest in
        (FromNode (fst w - start - 1) (snd w) :: r, n)
      else
        let (r, n) := extract_ports start len (S next_input) rest in (FromIn next_input :: r, n)
  end.
Fixpoint extract_nodes (start len : nat) (next_input : nat) (nodes : list (op * list name)) : list (op * list csrc) :=
  match nodes with
  | [] => []
  | (o, ws) :: rest =>
      let (ss, n) := extract_ports start len next_input ws in
      (o, ss) :: extract_nodes start len n rest
  end.
Definition out_ports (start : nat) (group : list (op * list name)) : list name :=
  flat_map (fun ko => map (fun p => (start + fst ko + 1, p)) (seq 0 (n_outs (fst (snd ko))))) (indexed group).
Definition used_outside (c : circuit) (start len : nat) (w : name) : bool :=
  existsb (name_eqb w)
    (group_reads (firstn start (cir_nodes c)) ++ group_reads (skipn (start + len) (cir_nodes c)) ++ cir_outs c).
Definition extract (c : circuit) (start len : nat) : named_chunk :=
  let group := firstn len (skipn start (cir_nodes c)) in
  let outs := filter (used_outside c start len) (out_ports start group) in
  {| c_body := {| b_nodes := extract_nodes start len 0 group;
                  b_outs := map (fun w => FromNode (fst w - start - 1) (snd w)) outs |};
     c_ins := filter (fun w => negb (inside start len w)) (group_reads group);
     c_outs := outs |}.
(** chunks.rs:286-298: the chunks of consecutive groups of the given sizes. *)
Fixpoint extract_all (c : circuit) (start : nat) (sizes : list nat) : list named_chunk :=
  match sizes with
  | [] => []
  | len :: rest => extract c start len :: extract_all c (start + len) rest
  end.

(** *** Hash maps: association lists without repeated keys. [iter] is the arbitrary order in
    which the entries are visited. *)
Variable iter : forall A : Type, list (name * A) -> list (name * A).
Definition hget {A : Type} (m : list (name * A)) (k : name) : option A :=
  option_map snd (find (fun x => name_eqb (fst x) k) m).
Definition hinsert {A : Type} (k : name) (v : A) (m : list (name * A)) : list (name * A) :=
  (k, v) :: filter (fun x => negb (name_eqb (fst x) k)) m.

(** *** Insertion *)

(** chunks.rs:216-226, ConnectionTarget. *)
Inductive ctarget : Type :=
  | InsertedInput (node port : nat) | InsertedOutput (node port : nat) | Transitive (w : name).
(** chunks.rs:204-214, ChunkInsertResult. *)
Record insert_result : Type := { incoming : list (name * list ctarget); outgoing : list (name * ctarget) }.

Definition is_in (i : nat) (s : csrc) : bool := match s with FromIn j => Nat.eqb i j | FromNode _ _ => false end.
(** linked_inputs of port i of the chunk's input node: node inputs, then output ports. *)
Definition node_links (b : body) (i : nat) : list (nat * nat) :=
  flat_map (fun kn => flat_map (fun ps => if is_in i (snd ps) then [(fst kn, fst ps)] else []) (indexed (snd (snd kn))))
           (indexed (b_nodes op b)).
Definition out_links (b : body) (i : nat) : list nat :=
  flat_map (fun ps => if is_in i (snd ps) then [fst ps] else []) (indexed (b_outs op b)).

(** chunks.rs:122-137: the targets of one chunk input; inserted nodes are numbered from [base]
    on. [None]: index out of range. *)
Definition input_targets (base : nat) (c : named_chunk) (i : nat) : option (list ctarget) :=
  match all_some (map (nth_error (c_outs op c)) (out_links (c_body op c) i)) with
  | Some ws => Some (map (fun kp => InsertedInput (base + fst kp) (snd kp)) (node_links (c_body op c) i)
                     ++ map Transitive ws)
  | None => None
  end.
(** chunks.rs:139-154: the source of one chunk output. *)
Definition output_target (base : nat) (c : named_chunk) (s : csrc) : option ctarget :=
  match s with
  | FromIn i => match nth_error (c_ins op c) i with Some w => Some (Transitive w) | None => None end
  | FromNode k p => Some (InsertedOutput (base + k) p)
  end.
Fixpoint insert_inputs (f : nat -> option (list ctarget)) (ins : list (nat * name))
    (m : list (name * list ctarget)) : option (list (name * list ctarget)) :=
  match ins with
  | [] => Some m
  | (i, w) :: rest => match f i with Some ts => insert_inputs f rest (hinsert w ts m) | None => None end
  end.
Fixpoint insert_outputs (f : csrc -> option ctarget) (outs : list (name * csrc))
    (m : list (name * ctarget)) : option (list (name * ctarget)) :=
  match outs with
  | [] => Some m
  | (w, s) :: rest => match f s with Some t => insert_outputs f rest (hinsert w t m) | None => None end
  end.
(** chunks.rs:96-160, Chunk::insert for a chunk with nodes. *)
Definition insert_nonempty (base : nat) (c : named_chunk) : option insert_result :=
  match insert_inputs (input_targets base c) (indexed (c_ins op c)) [],
        insert_outputs (output_target base c) (combine (c_outs op c) (b_outs op (c_body op c))) [] with
  | Some i, Some o => Some {| incoming := i; outgoing := o |}
  | _, _ => None
  end.
(** chunks.rs:165-197, empty_chunk_insert_result; the assertions fail on a link to a node. *)
Definition empty_input_targets (c : named_chunk) (i : nat) : option (list ctarget) :=
  match node_links (c_body op c) i with
  | [] => match all_some (map (nth_error (c_outs op c)) (out_links (c_body op c) i)) with
          | Some ws => Some (map Transitive ws) | None => None end
  | _ => None
  end.
Definition empty_output_target (c : named_chunk) (s : csrc) : option ctarget :=
  match s with
  | FromIn i => match nth_error (c_ins op c) i with Some w => Some (Transitive w) | None => None end
  | FromNode _ _ => None
  end.
Definition insert_empty (c : named_chunk) : option insert_result :=
  match insert_inputs (empty_input_targets c) (indexed (c_ins op c)) [],
        insert_outputs (empty_output_target c) (combine (c_outs op c) (b_outs op (c_body op c))) [] with
  | Some i, Some o => Some {| incoming := i; outgoing := o |}
  | _, _ => None
  end.
(** chunks.rs:96-107: the case distinction. *)
Definition insert (base : nat) (c : named_chunk) : option insert_result :=
  match b_nodes op (c_body op c) with [] => insert_empty c | _ => insert_nonempty base c end.

(** HUGR's insert_subgraph: the nodes with the edges between them. *)
Definition internal_edges (base : nat) (b : body) : list (source * target) :=
  flat_map (fun kn =>
    flat_map (fun ps => match snd ps with
                        | FromNode k' p' => [(SOut (base + k') p', TNode (base + fst kn) (fst ps))]
                        | FromIn _ => [] end) (indexed (snd (snd kn))))
    (indexed (b_nodes op b)).

(** *** Reassembly *)

Record state : Type := {
  st_ops : list op; st_edges : list (source * target);
  sources : list (name * source);
  targets : list (name * list target);
  transitive : list (name * name) }.

(** chunks.rs:339-344, get_merged_connection. *)
Definition merged (tr : list (name * name)) (w : name) : name := match hget tr w with Some m => m | None => w end.

(** chunks.rs:368-382: the outgoing connections of a chunk; [None] is the panic. *)
Fixpoint add_outgoing (os : list (name * ctarget)) (src : list (name * source)) (tr : list (name * name))
    : option (list (name * source) * list (name * name)) :=
  match os with
  | [] => Some (src, tr)
  | (w, InsertedOutput n p) :: rest => add_outgoing rest (hinsert w (SOut n p) src) tr
  | (w, Transitive m) :: rest => add_outgoing rest src (hinsert w (merged tr m) tr)
  | (_, InsertedInput _ _) :: _ => None
  end.
Definition push_target (w : name) (t : target) (tg : list (name * list target)) : list (name * list target) :=
  hinsert w (match hget tg w with Some l => l ++ [t] | None => [t] end) tg.
(** chunks.rs:383-400: the incoming connections. *)
Fixpoint add_targets (w : name) (ts : list ctarget) (tg : list (name * list target)) : option (list (name * list target)) :=
  match ts with
  | [] => Some tg
  | InsertedInput n p :: rest => add_targets w rest (push_target w (TNode n p) tg)
  | Transitive _ :: rest => add_targets w rest tg
  | InsertedOutput _ _ :: _ => None
  end.
Fixpoint add_incoming (is : list (name * list ctarget)) (tr : list (name * name)) (tg : list (name * list target))
    : option (list (name * list target)) :=
  match is with
  | [] => Some tg
  | (w, ts) :: rest =>
      match add_targets (merged tr w) ts tg with Some tg => add_incoming rest tr tg | None => None end
  end.

(** chunks.rs:357-401: one chunk. *)
Definition add_chunk (st : state) (c : named_chunk) : option state :=
  match insert (length (st_ops st)) c with
  | None => None
  | Some r =>
      match add_outgoing (iter _ (outgoing r)) (sources st) (transitive st) with
      | None => None
      | Some (src, tr) =>
          match add_incoming (iter _ (incoming r)) tr (targets st) with
          | None => None
          | Some tg =>
              Some {| st_ops := st_ops st ++ map fst (b_nodes op (c_body op c));
                      st_edges := st_edges st ++ internal_edges (length (st_ops st)) (c_body op c);
                      sources := src; targets := tg; transitive := tr |}
          end
      end
  end.
Fixpoint add_chunks (cs : list named_chunk) (st : state) : option state :=
  match cs with
  | [] => Some st
  | c :: rest => match add_chunk st c with Some st => add_chunks rest st | None => None end
  end.

(** chunks.rs:347-354: the circuit inputs. *)
Definition initial (input_connections : list name) : state :=
  {| st_ops := []; st_edges := [];
     sources := fold_left (fun m iw => hinsert (snd iw) (SIn (fst iw)) m) (indexed input_connections) [];
     targets := []; transitive := [] |}.
(** chunks.rs:403-414: the circuit outputs. *)
Definition add_outputs (st : state) (output_connections : list name) : list (name * list target) :=
  fold_left (fun tg iw => push_target (merged (transitive st) (snd iw)) (TOut (fst iw)) tg)
            (indexed output_connections) (targets st).
(** chunks.rs:308-428, reassemble. In the last loop an entry of [targets] is removed when it is
    used; the keys of [sources] are distinct, so each is used at most once anyway. *)
Definition reassemble (input_connections output_connections : list name) (cs : list named_chunk) : option (graph op) :=
  match add_chunks cs (initial input_connections) with
  | None => None
  | Some st =>
      let tg := add_outputs st output_connections in
      Some {| g_ops := st_ops st;
              g_edges := st_edges st ++
                flat_map (fun ws => match hget tg (fst ws) with
                                    | Some ts => map (fun t => (snd ws, t)) ts
                                    | None => [] end) (iter _ (sources st)) |}
  end.

(** chunks.rs:262-428: split a circuit with [n_in] inputs into groups of the given sizes, and
    reassemble. *)
Definition inputs_of (n_in : nat) : list name := map (fun p => (0, p)) (seq 0 n_in).
Definition split_reassemble (n_in : nat) (c : circuit) (sizes : list nat) : option (graph op) :=
  reassemble (inputs_of n_in) (cir_outs c) (extract_all c 0 sizes).
End Chunks.
