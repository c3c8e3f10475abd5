(** Model of the rewriting strategies, tket/src/rewrite/strategy.rs and rewrite.rs.

    A rewrite (SimpleReplacement of HUGR) is reduced to the nodes it removes, further nodes in
    its invalidation set, and the operations of the replacement; a circuit to its numbered
    operations. Applying a rewrite fails if one of its nodes is gone. The numbers of inserted
    nodes are arbitrary unused ones (numbers of removed nodes may be used again).
    [None] is the panic of an [expect] or of looking up a missing node. *)
From Coq Require Import ZArith List Bool Arith.
From Verif Require Import CostModel StrategySpec.
Import ListNotations.
Open Scope Z_scope.

Section Strategy.
Variable op : Type.
Notation circ := (circ op).
Notation rewrite := (rewrite op).
Variable fresh : list nat -> nat -> list nat.

Definition mem (n : nat) (l : list nat) : bool := existsb (Nat.eqb n) l.

(** rewrite.rs:74-90, apply / apply_notrace (the trace is metadata and left out). *)
Definition apply (rw : rewrite) (c : circ) : option circ :=
  if forallb (fun n => mem n (ids c)) (rw_nodes rw) then
    let kept := filter (fun e => negb (mem (fst e) (rw_nodes rw))) c in
    Some (kept ++ combine (fresh (ids kept) (length (rw_repl rw))) (rw_repl rw))
  else None.

(** rewrite.rs:63-71, invalidation_set. *)
Definition invalidation_set (rw : rewrite) : list nat := rw_nodes rw ++ rw_extra rw.

(** Itertools::sorted_by_key: a stable sort. *)
Fixpoint insert_by {A K : Type} (leb : K -> K -> bool) (key : A -> K) (x : A) (l : list A) : list A :=
  match l with
  | [] => [x]
  | y :: r => if leb (key x) (key y) then x :: l else y :: insert_by leb key x r
  end.
Definition sorted_by_key {A K : Type} (leb : K -> K -> bool) (key : A -> K) (l : list A) : list A :=
  fold_right (insert_by leb key) [] l.
Fixpoint take_while {A : Type} (f : A -> bool) (l : list A) : list A :=
  match l with [] => [] | x :: r => if f x then x :: take_while f r else [] end.

(** *** GreedyRewriteStrategy *)
Variable num_ops : op -> Z.   (* what Circuit::num_operations (circuit.rs:192-211) counts for a node:
                                 1 for an operation, 0 for ignored ones and e.g. load-constant nodes,
                                 the number of nested operations for a container *)
Definition num_operations (l : list op) : Z := fold_right (fun o n => num_ops o + n) 0 l.

(** rewrite.rs:46-50, node_count_delta (no wrapping: node counts are far below 2^63). *)
Definition node_count_delta (rw : rewrite) : Z :=
  num_operations (rw_repl rw) - Z.of_nat (length (rw_nodes rw)).

(** strategy.rs:127-141, the loop. *)
Fixpoint greedy_loop (rws : list rewrite) (changed : list nat) (delta : Z) (c : circ)
    : option (circ * Z) :=
  match rws with
  | [] => Some (c, delta)
  | rw :: rest =>
      if existsb (fun n => mem n changed) (rw_nodes rw) then greedy_loop rest changed delta c
      else
        match apply rw c with
        | None => None
        | Some c => greedy_loop rest (rw_nodes rw ++ changed) (delta + node_count_delta rw) c
        end
  end.
(** strategy.rs:115-143, GreedyRewriteStrategy::apply_rewrites. *)
Definition greedy_apply (rws : list rewrite) (c : circ) : option (circ * Z) :=
  greedy_loop
    (take_while (fun rw => node_count_delta rw <? 0) (sorted_by_key Z.leb node_count_delta rws))
    [] 0 c.

(** *** Exhaustive strategies *)
Variable N : nat.
Variable op_cost : op -> list Z.
Variable under_threshold : list Z -> list Z -> bool.

(** strategy.rs:295-299, StrategyCost::under_threshold, the default. *)
Definition default_threshold (pattern target : list Z) : bool := as_isize (sub_cost target pattern) <=? 0.

(** circuit.rs:359-366, circuit_cost: all operations of the circuit. *)
Definition circuit_cost (l : list op) : list Z := cost_sum N (map op_cost l).

(** circuit.rs:261-270, nodes_cost. *)
Fixpoint get_ops (nodes : list nat) (c : circ) : option (list op) :=
  match nodes with
  | [] => Some []
  | n :: r =>
      match find (fun e => Nat.eqb (fst e) n) c, get_ops r c with
      | Some (_, o), Some os => Some (o :: os)
      | _, _ => None
      end
  end.
(** strategy.rs:68-82, pre_rewrite_cost and post_rewrite_cost. *)
Definition pre_rewrite_cost (rw : rewrite) (c : circ) : option (list Z) :=
  match get_ops (rw_nodes rw) c with Some os => Some (cost_sum N (map op_cost os)) | None => None end.
Definition post_rewrite_cost (rw : rewrite) : list Z := circuit_cost (rw_repl rw).

(** strategy.rs:192-203 and 270-276: the accepted rewrites with their cost deltas. *)
Fixpoint accepted_rewrites (rws : list rewrite) (c : circ) : option (list (rewrite * list Z)) :=
  match rws with
  | [] => Some []
  | rw :: rest =>
      match pre_rewrite_cost rw c, accepted_rewrites rest c with
      | Some pat, Some acc =>
          let tgt := post_rewrite_cost rw in
          Some (if under_threshold pat tgt then (rw, sub_cost tgt pat) :: acc else acc)
      | _, _ => None
      end
  end.

(** strategy.rs:205-231; the u16 counter of composed rewrites wraps (it panics in a debug build). *)
Fixpoint exhaustive_loop (rws : list (rewrite * list Z)) (changed : list nat) (delta : list Z)
    (count : Z) (c : circ) : option (circ * list Z * Z) :=
  match rws with
  | [] => Some (c, delta, count)
  | (rw, d) :: rest =>
      if negb (match changed with [] => true | _ => false end)
         && existsb (fun n => mem n changed) (invalidation_set rw)
      then exhaustive_loop rest changed delta count c
      else
        match apply rw c with
        | None => None
        | Some c =>
            exhaustive_loop rest (invalidation_set rw ++ changed) (delta_add delta d)
              ((count + 1) mod 65536) c
        end
  end.

Fixpoint sequence {A : Type} (l : list (option A)) : option (list A) :=
  match l with
  | [] => Some []
  | Some x :: r => match sequence r with Some xs => Some (x :: xs) | None => None end
  | None :: _ => None
  end.

(** strategy.rs:185-233, ExhaustiveGreedyStrategy::apply_rewrites; results are (circuit, delta,
    number of composed rewrites). The iterator is consumed to the end. *)
Definition exhaustive_greedy (rws : list rewrite) (c : circ) : option (list (circ * list Z * Z)) :=
  match accepted_rewrites rws c with
  | None => None
  | Some acc =>
      let acc := sorted_by_key cost_leb snd acc in
      sequence (map (fun i => exhaustive_loop (skipn i acc) [] (cost_default N) 0 c)
                    (seq 0 (length acc)))
  end.

(** strategy.rs:264-281, ExhaustiveThresholdStrategy::apply_rewrites. *)
Definition exhaustive_threshold (rws : list rewrite) (c : circ) : option (list (circ * list Z)) :=
  match accepted_rewrites rws c with
  | None => None
  | Some acc =>
      sequence (map (fun e => match apply (fst e) c with Some c' => Some (c', snd e) | None => None end) acc)
  end.
End Strategy.
Arguments sequence {A}.
