(** What the encoding of unsupported nodes must respect: the edges of the region. *)
From Coq Require Import List Bool Arith.
From Verif Require Import OpqModel.
Import ListNotations.

(** An edge of the region, of values or of order. *)
Definition edge (l : list node) (u v : nat) : Prop := exists x, In x l /\ n_id x = v /\ In u (n_in x ++ n_order x).
(** The list is a topological order: every node comes after the nodes it depends on. *)
Definition topological (l : list node) : Prop :=
  NoDup (map n_id l) /\ forall a x b, l = a ++ x :: b -> incl (n_in x ++ n_order x) (map n_id a).
Definition unsupported (l : list node) (u : nat) : Prop := exists x, In x l /\ n_id x = u /\ n_ok x = false.
Definition supported (l : list node) (u : nat) : Prop := exists x, In x l /\ n_id x = u /\ n_ok x = true.
(** The emitter of a supported node reads all its values, and it has no order edges (encoder.rs:880-882). *)
Definition reads_inputs (l : list node) : Prop := forall x, In x l -> n_ok x = true -> incl (n_in x) (n_reads x) /\ n_order x = [].
(** The nodes that become one command, in the order of the circuit, and the extra nodes. *)
Definition members (i : item) : list nat := match i with Command n => [n] | OpaqueBarrier _ g => g end.
Definition extra_nodes (e : encoded) : list nat := match e_extra e with Some (_, g) => g | None => [] end.
Definition groups (e : encoded) : list (list nat) := map members (e_items e) ++ [extra_nodes e].
(** No edge goes from a group to an earlier one. *)
Definition in_order (l : list node) (gs : list (list nat)) : Prop :=
  forall a g b, gs = a ++ g :: b -> forall v u, In v g -> edge l u v -> In u (concat a ++ g).
Inductive path (l : list node) (u : nat) : nat -> Prop :=
  | path_here : path l u u
  | path_step v w : path l u v -> edge l v w -> path l u w.
Definition convex (l : list node) (g : list nat) : Prop := forall u v w, In u g -> In w g -> path l u v -> path l v w -> In v g.
(** [u] and [v] are joined by edges between nodes of the group, in any direction. *)
Inductive linked (l : list node) (g : list nat) (u : nat) : nat -> Prop :=
  | linked_here : In u g -> linked l g u u
  | linked_step v w : linked l g u v -> In w g -> edge l v w \/ edge l w v -> linked l g u w.

(** ** Registries *)
(** The barriers of an encoding, and its extra subgraph, with the nodes they stand for. *)
Definition opaque (e : encoded) : list (subgraph_id * list nat) :=
  flat_map (fun i => match i with OpaqueBarrier id g => [(id, g)] | Command _ => [] end) (e_items e) ++ match e_extra e with Some x => [x] | None => [] end.

(** ** Standalone circuits *)
(** All commands of a circuit, those of boxes after the box, with the depth they are at. *)
Fixpoint parts {Payload Text Op} (k : nat) (c : @command Payload Text Op) : list (nat * Op * bool * option (@data Payload Text)) :=
  match c with Cmd op b d box => (k, op, b, d) :: match box with None => [] | Some cs => flat_map (parts (S k)) cs end end.
Definition all_parts {Payload Text Op} (cs : list (@command Payload Text Op)) := flat_map (parts 0) cs.

(** ** Edges *)
(** The ends of the edges of the payloads: [sources] as the ports are after insertion, [targets] likewise. *)
Definition sources (ps : list payload) : list (nat * port) :=
  flat_map (fun p => map (fun o => (fst o, (p_node_map p (fst (snd o)), snd (snd o)))) (p_outputs p)) ps.
Definition targets (ps : list payload) : list (nat * port) :=
  flat_map (fun p => flat_map (fun i => map (fun t => (fst i, (p_node_map p (fst t), snd t))) (snd i)) (p_inputs p)) ps.
(** The targets as they are in the payload. *)
Definition raw_targets (ps : list payload) : list (nat * port) :=
  flat_map (fun p => flat_map (fun i => map (fun t => (fst i, t)) (snd i)) (p_inputs p)) ps.
(** Every source joined to every target with the same id. *)
Definition join (ss ts : list (nat * port)) : list (port * port) :=
  flat_map (fun s => map (fun t => (snd s, snd t)) (filter (fun t => Nat.eqb (fst t) (fst s)) ts)) ss.
