(** Model of tket/src/subcircuit/interval.rs: intervals on resource paths. *)
From Coq Require Import List Bool Arith.
From Verif Require Import ScopeModel.
Import ListNotations.

(** interval.rs:29-52 *)
Inductive interval : Type :=
  | Singleton (start_or_end : nat * port)
  | Span (start end_ : nat * nat).
(** interval.rs:420-431, InvalidInterval. A panic is [Panic]. *)
Inductive error : Type := NotContiguous (n : nat) | NotOnResourcePath (n : nat) | StartAfterEnd (a b r : nat) | Panic.
Inductive result (A : Type) : Type := Ok (a : A) | Err (e : error).
Arguments Ok {A}.
Arguments Err {A}.

Section Interval.
Variables (g : graph) (nodes : list nat) (st : state).

(** interval.rs:58-71, new_singleton *)
Definition new_singleton (r n : nat) : option interval :=
  match get_port g st n r Incoming with
  | Some p => Some (Singleton (n, p))
  | None => match get_port g st n r Outgoing with Some p => Some (Singleton (n, p)) | None => None end
  end.
(** interval.rs:79-106, new_span *)
Definition new_span (a b : nat * port) : result interval :=
  let span s e := if Nat.eqb (fst s) (fst e) then Err Panic (* debug_assert *) else Ok (Span s e) in
  match a, b with
  | (n, (Outgoing, i)), (m, (Incoming, j)) => span (n, i) (m, j)
  | (n, (Incoming, i)), (m, (Outgoing, j)) => span (m, j) (n, i)
  | _, _ => Err Panic
  end.
(** interval.rs:126-162, try_new *)
Definition try_new (r a b : nat) : result interval :=
  match position st a with
  | None => Err (NotOnResourcePath a)
  | Some pa =>
      match position st b with
      | None => Err (NotOnResourcePath b)
      | Some pb =>
          if Nat.ltb pb pa then Err (StartAfterEnd a b r)
          else if Nat.eqb a b then match new_singleton r a with Some i => Ok i | None => Err (NotOnResourcePath a) end
          else match get_port g st a r Outgoing with
               | None => Err (NotOnResourcePath a)
               | Some p => match get_port g st b r Incoming with None => Err (NotOnResourcePath b) | Some q => new_span (a, p) (b, q) end
               end
      end
  end.
(** interval.rs:222-244 *)
Definition start_node (i : interval) : nat := match i with Singleton (n, _) => n | Span (n, _) _ => n end.
Definition end_node (i : interval) : nat := match i with Singleton (n, _) => n | Span _ (n, _) => n end.
(** interval.rs:370-380, any_port *)
Definition any_port (i : interval) : nat * port := match i with Singleton np => np | Span (n, p) _ => (n, (Outgoing, p)) end.
(** interval.rs:165-171, resource_id; [None]: a panic *)
Definition resource_id (i : interval) : option nat := get_resource_id st (fst (any_port i)) (snd (any_port i)).
(** interval.rs:177-219, boundary_port; the outer [None] is a panic. *)
Definition boundary_port (i : interval) (d : direction) : option (option (nat * port)) :=
  let '(n, p) := match i, d with
    | Singleton np, _ => np
    | Span (n, p) _, Incoming => (n, (Outgoing, p))
    | Span _ (n, p), Outgoing => (n, (Incoming, p))
    end in
  match get_resource_id st n p with
  | None => None
  | Some r => Some (match get_port g st n r d with Some p => Some (n, p) | None => None end)
  end.
(** interval.rs:355-367 and 383-396, position_in_interval: [Lt] before, [Gt] after; [None]: a panic *)
Definition position_in_interval (i : interval) (pos : nat) : option comparison :=
  match position st (start_node i), position st (end_node i) with
  | Some a, Some b => Some (if Nat.ltb pos a then Lt else if Nat.ltb b pos then Gt else Eq)
  | None, _ => None
  | Some a, None => if Nat.ltb pos a then Some Lt else None
  end.
(** interval.rs:402-416, ensure_direction_resource_port *)
Definition ensure_direction (np : nat * port) (d : direction) : option (nat * port) :=
  if direction_dec d (fst (snd np)) then Some np
  else match get_resource_id st (fst np) (snd np) with
       | None => None
       | Some r => match get_port g st (fst np) r d with Some p => Some (fst np, p) | None => None end
       end.
(** interval.rs:307-346, add_node_unchecked: the new interval, and the direction of the extension *)
Definition add_node_unchecked (i : interval) (n : nat) : result (interval * option direction) :=
  match position st n, resource_id i with
  | Some pos, Some r =>
      match position_in_interval i pos with
      | None => Err Panic
      | Some Eq => Ok (i, None)
      | Some c =>
          let dir := match c with Lt => Incoming | _ => Outgoing end in
          match get_port g st n r (reverse dir) with
          | None => Err Panic
          | Some p =>
              match (match i, dir with
                     | Span _ (m, q), Incoming => Some (m, (Incoming, q))
                     | Span (m, q) _, Outgoing => Some (m, (Outgoing, q))
                     | Singleton np, d => ensure_direction np d
                     end) with
              | None => Err Panic
              | Some existing => match new_span (n, p) existing with Ok i => Ok (i, Some dir) | Err e => Err e end
              end
          end
      end
  | _, _ => Err Panic
  end.
(** interval.rs:255-298, try_extend *)
Definition try_extend (i : interval) (n : nat) : result (interval * option direction) :=
  match position st n with
  | None => Err (NotOnResourcePath n)
  | Some pos =>
      match position_in_interval i pos with
      | None => Err Panic
      | Some Eq => Ok (i, None)
      | Some Lt =>
          match boundary_port i Incoming with
          | None => Err Panic
          | Some None => Err (NotContiguous n)
          | Some (Some (m, p)) =>
              match source g m (snd p) with
              | None => Err (NotContiguous n)
              | Some (prev, _) => if Nat.eqb prev n then add_node_unchecked i n else Err (NotContiguous n)
              end
          end
      | Some Gt =>
          match boundary_port i Outgoing with
          | None => Err Panic
          | Some None => Err (NotContiguous n)
          | Some (Some (m, p)) =>
              match single_linked_input g m (snd p) with
              | None => Err (NotContiguous n)
              | Some (next, _) => if Nat.eqb next n then add_node_unchecked i n else Err (NotContiguous n)
              end
          end
      end
  end.
(** interval.rs:434-444, nodes_in_interval: the path from the start node, up to and including the end node.
    [fuel] bounds the length. *)
Fixpoint take_while_inclusive (e : nat) (l : list nat) : list nat :=
  match l with [] => [] | n :: l => if Nat.eqb n e then [n] else n :: take_while_inclusive e l end.
Definition nodes_in_interval (fuel : nat) (i : interval) : option (list nat) :=
  match resource_id i with
  | None => None
  | Some r => match resource_path_iter g nodes st r Outgoing fuel (start_node i) with Some l => Some (take_while_inclusive (end_node i) l) | None => None end
  end.
End Interval.
