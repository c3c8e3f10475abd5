(** Model of the single-threaded search, tket/src/optimiser/backtracking.rs.

    The [State] trait (optimiser.rs:88-113) is three functions on an abstract state type and
    an abstract context that [next] may change. Time is an oracle: [stop k] says whether one of
    the two timeouts fires after the k-th visited state. Logging is left out. *)
From Coq Require Import List Bool Arith.
From Verif Require Import PQueueSpec PQueueModel.
Import ListNotations.

Section Search.
Variables (S P C : Type) (ltb : P -> P -> bool).
Variables (hash : C -> S -> option nat) (cost : C -> S -> option P) (next : C -> S -> list S * C).

(** The options (backtracking.rs:18-38 and OptimiserOptions::track_n_best). *)
Record options : Type := {
  queue_size : nat;
  max_visited : option nat;
  track_n_best : option nat;
  stop : nat -> bool
}.

(** pqueue.rs:67-74, push. [None]: panic. *)
Definition push_state (q : pq S P) (c : C) (s : S) : option (pq S P * option (entry S P)) :=
  match hash c s with
  | None => Some (q, None)
  | Some h =>
      match cost c s with
      | None => Some (q, None)
      | Some k => pq_push ltb q s h k
      end
  end.

(** backtracking.rs:100-104. *)
Fixpoint push_states (q : pq S P) (c : C) (l : list S) : option (pq S P) :=
  match l with
  | [] => Some q
  | s :: l => match push_state q c s with None => None | Some (q, _) => push_states q c l end
  end.

Inductive result : Type :=
| OutOfFuel
| Panic
| NoResult                                         (* the code returns None *)
| Result (best : S) (n_best : option (list S))
    (visited : list (entry S P)) (exhausted : bool) (final : pq S P).
(** [visited] (the popped entries, in order), [exhausted] (the loop ended on an empty queue) and
    [final] (the queue at the end) are not returned by the code; they are used to state
    properties. *)

Definition finish (best : S) (q : pq S P) (visited : list (entry S P)) (exhausted : bool) : result :=
  match into_all_time_best ltb q with
  | None => Panic
  | Some nb => Result best nb visited exhausted q
  end.

(** backtracking.rs:86-124 and 135-138; [visited] is in reverse order. *)
Fixpoint search_loop (fuel : nat) (o : options) (q : pq S P) (c : C) (best : S) (best_cost : P)
    (visited : list (entry S P)) : result :=
  match fuel with
  | O => OutOfFuel
  | Datatypes.S fuel =>
      match pq_pop ltb q with
      | (q, None) => finish best q (rev visited) true
      | (q, Some e) =>
          let (best, best_cost) :=
            if ltb (ecost e) best_cost then (estate e, ecost e) else (best, best_cost) in
          let visited := e :: visited in
          let (new_states, c) := next c (estate e) in
          match push_states q c new_states with
          | None => Panic
          | Some q =>
              if stop o (length visited) ||
                 match max_visited o with Some m => Nat.leb m (length visited) | None => false end
              then finish best q (rev visited) false
              else search_loop fuel o q c best best_cost visited
          end
      end
  end.

(** backtracking.rs:63-139, optimise_with_options. [ties]: see PQueueModel. *)
Definition search (fuel : nat) (o : options) (ties : nat -> nat) (s : S) (c : C) : result :=
  match cost c s with
  | None => NoResult
  | Some k =>
      match push_state (pq_new (queue_size o) (track_n_best o) ties) c s with
      | None => Panic
      | Some (_, None) => NoResult
      | Some (q, Some _) => search_loop fuel o q c s k []
      end
  end.
End Search.

Arguments search {S P C}. Arguments search_loop {S P C}. Arguments push_states {S P C}.
Arguments push_state {S P C}. Arguments Result {S P}. Arguments NoResult {S P}.
Arguments Panic {S P}. Arguments OutOfFuel {S P}. Arguments finish {S P}.
