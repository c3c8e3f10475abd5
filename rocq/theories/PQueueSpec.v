(** Vocabulary for the properties of the optimiser's priority queue and of the search:
    orders, and an abstract bounded queue that may resolve ties in any way. *)
From Coq Require Import List Bool Arith Permutation.
Import ListNotations.

(** A cost order as given by Rust's [Ord]: a strict weak order (different costs may compare
    as equal). *)
Record strict_weak {P : Type} (ltb : P -> P -> bool) : Prop := {
  sw_asym : forall a b, ltb a b = true -> ltb b a = false;
  sw_negtrans : forall a b c, ltb a b = false -> ltb b c = false -> ltb a c = false
}.

Arguments sw_asym {P ltb}. Arguments sw_negtrans {P ltb}.

Section AbsQueue.
Variables (S P : Type) (ltb : P -> P -> bool).

(** A queue entry: hash, cost, state. *)
Definition entry : Type := (nat * P * S)%type.
Definition ehash (e : entry) : nat := fst (fst e).
Definition ecost (e : entry) : P := snd (fst e).
Definition estate (e : entry) : S := snd e.

(** Calls and what they return. *)
Inductive call : Type := Push (s : S) (h : nat) (c : P) | Pop.
Inductive outcome : Type := Pushed (r : option entry) | Popped (r : option entry).

(** No entry of [l] is cheaper than [c]; no entry of [l] is dearer than [c]. *)
Definition least (c : P) (l : list entry) : Prop := forall e, In e l -> ltb (ecost e) c = false.
Definition greatest (c : P) (l : list entry) : Prop := forall e, In e l -> ltb c (ecost e) = false.

(** The abstract queue of capacity [n]: the entries it holds and every hash it ever accepted. *)
Definition absq : Type := (list entry * list nat)%type.

Inductive abs_step (n : nat) : absq -> call -> outcome -> absq -> Prop :=
| AFull : forall l seen s h c,
    length l = n -> greatest c l -> (* also n = 0 *)
    abs_step n (l, seen) (Push s h c) (Pushed None) (l, seen)
| ASeen : forall l seen s h c,
    In h seen -> abs_step n (l, seen) (Push s h c) (Pushed None) (l, seen)
| AInsert : forall l l' seen s h c,
    length l < n -> ~ In h seen -> Permutation l' ((h, c, s) :: l) ->
    abs_step n (l, seen) (Push s h c) (Pushed (Some (h, c, s))) (l', h :: seen)
| AEvict : forall l l' seen s h c w,
    length l = n -> ~ In h seen -> In w l -> greatest (ecost w) l -> ltb c (ecost w) = true ->
    Permutation (w :: l') ((h, c, s) :: l) ->
    abs_step n (l, seen) (Push s h c) (Pushed (Some (h, c, s))) (l', h :: seen)
| AEmpty : forall seen, abs_step n ([], seen) Pop (Popped None) ([], seen)
| APop : forall l l' seen e,
    least (ecost e) l -> Permutation l (e :: l') ->
    abs_step n (l, seen) Pop (Popped (Some e)) (l', seen).

Inductive abs_run (n : nat) : absq -> list call -> list outcome -> absq -> Prop :=
| ARnil : forall q, abs_run n q [] [] q
| ARcons : forall q q' q'' c o cs os,
    abs_step n q c o q' -> abs_run n q' cs os q'' -> abs_run n q (c :: cs) (o :: os) q''.

(** The entries accepted in a run, and those returned by pop, in order. *)
Definition accepted (os : list outcome) : list entry :=
  flat_map (fun o => match o with Pushed (Some e) => [e] | _ => [] end) os.
Definition popped (os : list outcome) : list entry :=
  flat_map (fun o => match o with Popped (Some e) => [e] | _ => [] end) os.

(** Costs never decrease along the list. *)
Fixpoint cost_sorted (l : list entry) : Prop :=
  match l with
  | [] => True
  | e :: r => (forall x, In x r -> ltb (ecost x) (ecost e) = false) /\ cost_sorted r
  end.

(** [best] consists of the [n] cheapest of [all] (of all of them, if fewer), in order. *)
Definition n_cheapest (n : nat) (all best : list entry) : Prop :=
  NoDup (map ehash best) /\ incl best all /\ length best = min n (length all) /\
  cost_sorted best /\
  (forall e x, In e all -> ~ In e best -> In x best -> ltb (ecost e) (ecost x) = false).
End AbsQueue.

Arguments ehash {S P}. Arguments ecost {S P}. Arguments estate {S P}.
Arguments Push {S P}. Arguments Pop {S P}. Arguments Pushed {S P}. Arguments Popped {S P}.
Arguments accepted {S P}. Arguments popped {S P}.
Arguments least {S P}. Arguments greatest {S P}. Arguments abs_step {S P}. Arguments abs_run {S P}.
Arguments cost_sorted {S P}. Arguments n_cheapest {S P}.
