(** petgraph's topological walk, [petgraph::visit::Topo], as used by circuit/hash.rs:48 and
    circuit/command.rs:283: an external library, modelled here because the results depend on it.
    [ids]: the nodes in the order of [node_identifiers]; [succs], [preds]: the neighbours, once
    per edge. *)
From Coq Require Import List Bool Arith.
Import ListNotations.

Section Topo.
Variables (ids : list nat) (succs preds : nat -> list nat).

(** Topo::new: the nodes without incoming edges are stacked in order, the last on top. *)
Definition topo_start : list nat := rev (filter (fun n => match preds n with [] => true | _ => false end) ids).
(** Topo::next: pop; skip what was visited; push each neighbour with only visited predecessors.
    [out]: the visited nodes, last first. *)
Definition seen (out : list nat) (n : nat) : bool := existsb (Nat.eqb n) out.
Fixpoint topo_loop (fuel : nat) (stack out : list nat) : option (list nat) :=
  match fuel with
  | 0 => None
  | S fuel =>
      match stack with
      | [] => Some (rev out)
      | n :: stack =>
          if seen out n then topo_loop fuel stack out
          else topo_loop fuel (rev (filter (fun m => forallb (seen (n :: out)) (preds m)) (succs n)) ++ stack) (n :: out)
      end
  end.
(** Each node is stacked once at the start and at most once per edge. *)
Definition topo_fuel : nat := S (length ids + length (flat_map succs ids)).
Definition topo : option (list nat) := topo_loop topo_fuel topo_start [].
End Topo.
