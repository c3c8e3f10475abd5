(** Vocabulary for the properties of the modifier resolver's bookkeeping.  Only the data
    types of the model are used. *)
From Coq Require Import List Arith Bool.
From Verif Require Import ResolveModel.
Import ListNotations.

(** ** Chains *)

(** Sizes of the controls of a chain, in the order of the chain. *)
Fixpoint sizes (chain : list modifier) : list nat :=
  match chain with
  | [] => []
  | Control n :: r => n :: sizes r
  | _ :: r => sizes r
  end.

Fixpoint total (l : list nat) : nat := match l with [] => 0 | n :: r => n + total r end.

(** Odd numbers of daggers. *)
Fixpoint odd_daggers (chain : list modifier) : bool :=
  match chain with
  | [] => false
  | Dagger :: r => negb (odd_daggers r)
  | _ :: r => odd_daggers r
  end.

(** Operations that can be daggered and controlled, with the laws of both. *)
Record algebra := {
  op : Type;
  same : op -> op -> Prop;
  dag : op -> op;
  ctrl : nat -> op -> op;
  same_refl : forall u, same u u;
  same_sym : forall u v, same u v -> same v u;
  same_trans : forall u v w, same u v -> same v w -> same u w;
  dag_same : forall u v, same u v -> same (dag u) (dag v);
  ctrl_same : forall n u v, same u v -> same (ctrl n u) (ctrl n v);
  dag_dag : forall u, same (dag (dag u)) u;
  dag_ctrl : forall n u, same (dag (ctrl n u)) (ctrl n (dag u));
  ctrl_0 : forall u, same (ctrl 0 u) u;
  ctrl_add : forall m n u, same (ctrl m (ctrl n u)) (ctrl (m + n) u)
}.

(** What a chain without powers does to an operation: the outermost modifier, which is the
    first, is applied last. *)
Fixpoint denote (A : algebra) (chain : list modifier) (u : op A) : op A :=
  match chain with
  | [] => u
  | Control n :: r => ctrl A n (denote A r u)
  | Dagger :: r => dag A (denote A r u)
  | Power :: r => denote A r u
  end.

(** What the combined modifier stands for. *)
Definition stands_for (A : algebra) (c : combined) (u : op A) : op A :=
  ctrl A (control c) (if dagger c then dag A u else u).

(** Instance: invertible maps on bit strings, given with their inverses; a map controlled by
    [n] bits works on the rest of the string when the first [n] bits are set. *)
Fixpoint on_rest (n : nat) (f : list bool -> list bool) (s : list bool) : list bool :=
  match n, s with
  | 0, _ => f s
  | S n, true :: s => true :: on_rest n f s
  | S n, _ => s
  end.

(** ** Ports *)

Section Ports.
Variable ty : Type.
Variable quantum : ty -> bool.

Definition type_at (ins outs : list ty) (p : port) : option ty :=
  match fst p with Incoming => nth_error ins (snd p) | Outgoing => nth_error outs (snd p) end.

(** All ports of a node, numbered from the given offsets. *)
Definition ports (a n b m : nat) : list port := map (pair Incoming) (seq a n) ++ map (pair Outgoing) (seq b m).

Definition number (f : ty -> bool) (l : list ty) : nat := length (filter f l).

Definition flip (d : dir) : dir := match d with Incoming => Outgoing | Outgoing => Incoming end.

(** The port of the same number on the other side of the boundary of a region: an input of
    the node is an output of the input node inside. *)
Definition across (p : port) : port := (flip (fst p), snd p).

(** The maximal runs of quantum types of a row. *)
Fixpoint split_runs (l : list ty) : list (list ty) :=
  match l with
  | [] => [[]]
  | t :: r =>
      if quantum t then
        match split_runs r with
        | [] => [[t]]
        | x :: s => (t :: x) :: s
        end
      else [] :: split_runs r
  end.

Definition runs (l : list ty) : list (list ty) :=
  filter (fun x => match x with [] => false | _ => true end) (split_runs l).

(** Position [j] of [l'] has the same type as position [i] of [l], and both are the k-th
    quantum types of their rows for the same k. *)
Definition counterpart (l : list ty) (i : nat) (l' : list ty) (j : nat) : Prop :=
  exists t, quantum t = true /\ nth_error l i = Some t /\ nth_error l' j = Some t /\
    number quantum (firstn i l) = number quantum (firstn j l').

(** What a daggered wiring should be: classical ports keep their side and their number, the
    k-th quantum input is exchanged with the k-th quantum output. *)
Definition daggered (ins outs : list ty) (a b n : nat) (old new : port) : Prop :=
  match old with
  | (Incoming, i') => exists i t, i' = a + i /\ nth_error ins i = Some t /\
      if quantum t then exists j, new = (Outgoing, b + n + j) /\ counterpart ins i outs j
      else new = (Incoming, a + n + i)
  | (Outgoing, j') => exists j t, j' = b + j /\ nth_error outs j = Some t /\
      if quantum t then exists i, new = (Incoming, a + n + i) /\ counterpart outs j ins i
      else new = (Outgoing, b + n + j)
  end.
End Ports.

Arguments type_at {ty}.
Arguments number {ty}.
Arguments runs {ty}.
Arguments split_runs {ty}.
Arguments counterpart {ty}.
Arguments daggered {ty}.

(** ** Links *)

(** Number of nodes of an item. *)
Fixpoint size (it : item) : nat :=
  match it with
  | Region body => 3 + fold_right (fun it n => size it + n) 0 body
  | _ => 1
  end.

(** The calls of an item whose first node has number [base], with their nodes. *)
Fixpoint calls (it : item) (base : nat) : list (nat * nat) :=
  match it with
  | Call f => [(f, base)]
  | Plain => []
  | Region body =>
      (fix go (l : list item) (base : nat) : list (nat * nat) :=
         match l with [] => [] | it :: r => calls it base ++ go r (base + size it) end) body (base + 3)
  end.

Fixpoint has_region (l : list item) : bool :=
  match l with [] => false | Region _ :: _ => true | _ :: r => has_region r end.

(** In every region, no region comes after a call (in the region, or inside one of its
    regions). *)
Fixpoint tidy (it : item) : bool :=
  match it with
  | Region body =>
      (fix go (l : list item) : bool :=
         match l with
         | [] => true
         | it :: r => tidy it && go r &&
             (match calls it 0 with [] => true | _ => negb (has_region r) end)
         end) body
  | _ => true
  end.
