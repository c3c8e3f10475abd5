(** Vocabulary for the expressions of [ExprModel]. *)
From Coq Require Import List Arith Relations.
From Verif Require Import ScopeModel ScopeSpec.
Import ListNotations.

Section Spec.
Variable g : graph.
Variable scope : list nat.
Variable allowed : list (nat * nat).
Variable excluded : list nat.

(** Nodes that may be part of an expression: all their values are copyable. *)
Definition pure (n : nat) : Prop := forall p t, has_type g n p t -> copyable g t = true.
Definition admissible (n : nat) : Prop := In n scope /\ pure n /\ ~ In n excluded.

(** Going backwards from a node, not across the given ports and only to admissible nodes. *)
Inductive needed (out : nat) : nat -> Prop :=
| needed_out : needed out out
| needed_source : forall m i n p, needed out m -> source g m i = Some (n, p) ->
    ~ In (m, i) allowed -> admissible n -> needed out n.

(** Ports at which values enter, and ports whose values are used elsewhere. *)
Definition enters (out : nat) (q : nat * nat) : Prop :=
  needed out (fst q) /\ exists n p, source g (fst q) (snd q) = Some (n, p) /\ (In q allowed \/ ~ admissible n).
Definition leaves (out : nat) (q : nat * nat) : Prop :=
  needed out (fst q) /\
  exists m i, In (m, i) (targets g (fst q) (snd q)) /\ (needed out m -> In (m, i) allowed).

(** Paths of values in the scope. *)
Definition joined (a b : nat) : Prop := In a scope /\ In b scope /\ exists p i, In (b, i) (targets g a p).
Definition path : nat -> nat -> Prop := clos_refl_trans_1n _ joined.
Definition convex (S : nat -> Prop) : Prop := forall a b c, S a -> path a b -> path b c -> S c -> S b.

(** Each node after the nodes whose values it uses. *)
Definition in_order (order : list nat) : Prop :=
  forall l1 n l2, order = l1 ++ n :: l2 -> forall p m i, In (m, i) (targets g n p) -> In m order -> In m l2.

(** The priority queue gives one of the nodes of largest position. *)
Definition place (st : state) (n : nat) : nat := match position st n with Some k => k | None => 0 end.
Definition gives_largest (st : state) (choose : list nat -> list nat -> nat) : Prop :=
  forall v q, q <> [] -> In (choose v q) q /\ forall m, In m q -> place st m <= place st (choose v q).

(** What is supposed of the graph, the scope and the queue. *)
Record setting (st : state) (choose : list nat -> list nat -> nat) : Prop := {
  s_valid : valid g;
  s_increasing : increasing g scope st;
  s_signatures : forall n, In n scope -> exists s, signature g n = Some s;
  s_largest : gives_largest st choose;
  s_neighbours : forall a p b i, In (b, i) (targets g a p) -> In b (neighbours g a)
}.

(** *** The order of the inputs *)
Definition before {X} (x y : X) (l : list X) : Prop := exists l1 l2 l3, l = l1 ++ x :: l2 ++ y :: l3.
Definition from (q : nat * nat) (n : nat) : Prop := exists p, source g (fst q) (snd q) = Some (n, p).
(** Neither given, nor from an excluded node. *)
Definition elsewhere (q : nat * nat) : Prop := ~ In q allowed /\ exists n, from q n /\ ~ In n excluded.

(** *** Values *)
Section Values.
Variable V : Type.
Variable op : nat -> list V -> list V.

Fixpoint get {X} (env : list ((nat * nat) * X)) (q : nat * nat) : option X :=
  match env with
  | [] => None
  | (w, x) :: env => if andb (Nat.eqb (fst w) (fst q)) (Nat.eqb (snd w) (snd q)) then Some x else get env q
  end.
(** The inputs of a node: what is given at the port, or the value of its source. *)
Definition input_value (given env : list ((nat * nat) * V)) (n i : nat) : option V :=
  match get given (n, i) with
  | Some v => Some v
  | None => match source g n i with Some w => get env w | None => None end
  end.
Fixpoint all_some (l : list (option V)) : option (list V) :=
  match l with
  | [] => Some []
  | Some v :: l => option_map (cons v) (all_some l)
  | None :: _ => None
  end.
(** Evaluates nodes in order, knowing nothing but the values at the inputs. *)
Fixpoint evaluate (given : list ((nat * nat) * V)) (nodes : list nat) (env : list ((nat * nat) * V))
  : option (list ((nat * nat) * V)) :=
  match nodes with
  | [] => Some env
  | n :: nodes =>
      match all_some (map (input_value given env n) (seq 0 (length (types g n Incoming)))) with
      | None => None
      | Some vs => evaluate given nodes (combine (map (pair n) (seq 0 (length (op n vs)))) (op n vs) ++ env)
      end
  end.

(** A run of the whole circuit: the values of all wires agree with the operations of all
    admissible nodes. *)
Definition run_of (val : nat * nat -> V) : Prop :=
  forall n, admissible n ->
  forall vs, Forall2 (fun i v => exists w, source g n i = Some w /\ val w = v) (seq 0 (length (types g n Incoming))) vs ->
    length (op n vs) = length (types g n Outgoing) /\
    forall p v, nth_error (op n vs) p = Some v -> val (n, p) = v.
End Values.
End Spec.
