(** Model of expressions for copyable values: tket/src/subcircuit/expression.rs, on the graphs and
    scopes of [ScopeModel].  Positions are natural numbers as there. *)
From Coq Require Import List Bool Arith.
From Verif Require Import ScopeModel.
Import ListNotations.

(** Membership in index sets and B-tree sets of nodes and of ports. *)
Definition port_eqb (a b : nat * nat) : bool := Nat.eqb (fst a) (fst b) && Nat.eqb (snd a) (snd b).
Definition has (n : nat) (l : list nat) : bool := existsb (Nat.eqb n) l.
Definition has_port (q : nat * nat) (l : list (nat * nat)) : bool := existsb (port_eqb q) l.
(** IndexSet::insert and PriorityQueue::push: at the end if it is not there. *)
Definition insert_port (q : nat * nat) (l : list (nat * nat)) : list (nat * nat) := if has_port q l then l else l ++ [q].
Definition push_node (n : nat) (l : list nat) : list nat := if has n l then l else l ++ [n].
(** IndexSet::get_index_of *)
Fixpoint index {X} (eqb : X -> X -> bool) (x : X) (l : list X) : option nat :=
  match l with
  | [] => None
  | y :: l => if eqb x y then Some 0 else option_map S (index eqb x l)
  end.

(** expression.rs:28-39, CopyableExpr; a subgraph has inputs, outputs, function calls and nodes. *)
Inductive expr : Type :=
| Wire (w : nat * nat)
| Composite (inputs : list (list (nat * nat))) (outputs : list (nat * nat)) (calls : list (list nat)) (nodes : list nat).
(** What the constructor gives: an expression, the error, or a panic. *)
Inductive made : Type := MOk (e : expr) | MNotConvex | MPanic.

Section Expr.
Variable g : graph.
(** The scope: its nodes, the positions, and the functions that nodes call (static inputs). *)
Variable scope : list nat.
Variable st : state.
Variable callee : nat -> option nat.
(** Which of the nodes of largest position the priority queue gives; it may depend on the history. *)
Variable choose : list nat -> list nat -> nat.
Variable allowed : list (nat * nat).
Variable excluded : list nat.

(** expression.rs:213-218, pure_copyable *)
Definition pure_copyable (n : nat) : bool :=
  forallb (copyable g) (types g n Incoming) && forallb (copyable g) (types g n Outgoing).
(** expression.rs:221-230, admissible_node *)
Definition admissible_node (n : nat) : bool := negb (has n excluded) && pure_copyable n && has n scope.

(** expression.rs:232-238, ExprArgs, with the local variables of traverse_expression (the set of
    visited nodes is the list of nodes, the last one first). *)
Record args : Type := {
  a_inputs : list (nat * nat);
  a_outputs : list (nat * nat);
  a_calls : list nat;                 (* the port is determined by the node *)
  a_nodes : list nat;
  a_internal : list (nat * nat);      (* visited_incoming_ports *)
  a_queue : list nat
}.

(** expression.rs:167-182: the loop over the incoming ports; [None]: a panic. *)
Fixpoint visit_ports (n : nat) (ports : list nat) (a : args) : option args :=
  match ports with
  | [] => Some a
  | i :: ports =>
      match source g n i with
      | None => None
      | Some (m, _) =>
          if has_port (n, i) allowed || negb (admissible_node m) then
            visit_ports n ports {| a_inputs := insert_port (n, i) (a_inputs a); a_outputs := a_outputs a; a_calls := a_calls a;
                                   a_nodes := a_nodes a; a_internal := a_internal a; a_queue := a_queue a |}
          else
            match position st m with
            | None => None
            | Some _ =>
                visit_ports n ports {| a_inputs := a_inputs a; a_outputs := a_outputs a; a_calls := a_calls a; a_nodes := a_nodes a;
                                       a_internal := insert_port (n, i) (a_internal a); a_queue := push_node m (a_queue a) |}
            end
      end
  end.

(** expression.rs:159-166: the outputs of a node with a target that was not traversed *)
Definition new_outputs (n : nat) (internal : list (nat * nat)) : list (nat * nat) :=
  filter (fun q => existsb (fun t => negb (has_port t internal)) (targets g (fst q) (snd q)))
         (map (pair n) (seq 0 (length (types g n Outgoing)))).

(** expression.rs:156-190: what is done with a node *)
Definition visit (n : nat) (a : args) : option args :=
  let a1 := {| a_inputs := a_inputs a; a_outputs := fold_left (fun l q => insert_port q l) (new_outputs n (a_internal a)) (a_outputs a);
               a_calls := a_calls a; a_nodes := n :: a_nodes a; a_internal := a_internal a; a_queue := a_queue a |} in
  match visit_ports n (seq 0 (length (types g n Incoming))) a1 with
  | None => None
  | Some a2 => Some {| a_inputs := a_inputs a2; a_outputs := a_outputs a2;
                       a_calls := match callee n with Some _ => a_calls a2 ++ [n] | None => a_calls a2 end;
                       a_nodes := a_nodes a2; a_internal := a_internal a2; a_queue := a_queue a2 |}
  end.

(** expression.rs:129-193, traverse_expression; [fuel] bounds the number of iterations. *)
Fixpoint traverse (fuel : nat) (a : args) : option args :=
  match fuel with
  | O => None
  | S fuel =>
      match a_queue a with
      | [] => Some a
      | q =>
          let n := choose (a_nodes a) q in
          let a := {| a_inputs := a_inputs a; a_outputs := a_outputs a; a_calls := a_calls a; a_nodes := a_nodes a;
                      a_internal := a_internal a; a_queue := filter (fun m => negb (Nat.eqb m n)) q |} in
          if has n (a_nodes a) then traverse fuel a
          else match visit n a with None => None | Some a => traverse fuel a end
      end
  end.
Definition start (n : nat) : args :=
  {| a_inputs := []; a_outputs := []; a_calls := []; a_nodes := []; a_internal := []; a_queue := [n] |}.

(** expression.rs:252-266, group_function_calls; the order of the groups is that of a hash map
    there, here that of the first call. *)
Fixpoint group_calls (calls : list nat) (groups : list (nat * list nat)) : option (list (nat * list nat)) :=
  match calls with
  | [] => Some groups
  | n :: calls =>
      match callee n with
      | None => None
      | Some f =>
          group_calls calls
            (if has f (map fst groups)
             then map (fun e => if Nat.eqb (fst e) f then (fst e, snd e ++ [n]) else e) groups
             else groups ++ [(f, [n])])
      end
  end.

(** expression.rs:270-292, sort_inputs: the key, ordered as Either and Option are; a stable sort. *)
Definition key (q : nat * nat) : option (nat * nat) :=
  match index port_eqb q allowed with
  | Some k => Some (0, k)
  | None =>
      match source g (fst q) (snd q) with
      | None => None
      | Some (m, _) => match index Nat.eqb m excluded with None => Some (1, 0) | Some k => Some (1, S k) end
      end
  end.
Definition key_ltb (a b : nat * nat) : bool := Nat.ltb (fst a) (fst b) || (Nat.eqb (fst a) (fst b) && Nat.ltb (snd a) (snd b)).
Fixpoint insert_sorted (k : nat * nat) (q : nat * nat) (l : list ((nat * nat) * (nat * nat))) : list ((nat * nat) * (nat * nat)) :=
  match l with
  | [] => [(k, q)]
  | (k', q') :: l => if key_ltb k k' then (k, q) :: (k', q') :: l else (k', q') :: insert_sorted k q l
  end.
Fixpoint sort_keys (l : list (nat * nat)) (done : list ((nat * nat) * (nat * nat))) : option (list ((nat * nat) * (nat * nat))) :=
  match l with
  | [] => Some done
  | q :: l => match key q with None => None | Some k => sort_keys l (insert_sorted k q done) end
  end.
Definition sort_inputs (l : list (nat * nat)) : option (list (list (nat * nat))) :=
  option_map (map (fun e => [snd e])) (sort_keys l []).

(** expression.rs:115-125, validate_output_copyable *)
Definition output_copyable (output : nat * nat) : bool :=
  match nth_error (types g (fst output) Outgoing) (snd output) with Some t => copyable g t | None => false end.

(** expression.rs:74-113, try_new; [fuel] for the traversal and for reachability. *)
Definition try_new (fuel : nat) (output : nat * nat) : made :=
  if negb (output_copyable output) then MPanic
  else if negb (admissible_node (fst output)) then MOk (Wire output)
  else
    match position st (fst output) with
    | None => MPanic
    | Some _ =>
        match traverse fuel (start (fst output)) with
        | None => MPanic
        | Some a =>
            match any_reachable_from g fuel st (a_outputs a) (a_inputs a) with
            | None => MPanic
            | Some true => MNotConvex
            | Some false =>
                match sort_inputs (a_inputs a), group_calls (a_calls a) [] with
                | Some ins, Some cs => MOk (Composite ins (a_outputs a) (map snd cs) (a_nodes a))
                | _, _ => MPanic
                end
            end
        end
    end.

(** expression.rs:196-201, output; [None]: a panic *)
Definition output (e : expr) : option (nat * nat) :=
  match e with
  | Wire w => Some w
  | Composite _ outs _ _ => nth_error outs 0
  end.
End Expr.
