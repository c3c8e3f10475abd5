(** Vocabulary for the clean-up after modifiers are resolved. *)
From Coq Require Import List Bool Arith.
From Verif Require Import CleanModel.
Import ListNotations.

(** Nodes that are looked at: from the entry points along children and links in either direction. *)
Inductive reach (g : graph) (entries : list nat) : nat -> Prop :=
| r_entry : forall n, In n entries -> reach g entries n
| r_step : forall m n, reach g entries m -> In n (kids g m) \/ In n (ins g m) \/ In n (outs g m) -> reach g entries n.
(** Along links forwards. *)
Inductive after (g : graph) (m : nat) : nat -> Prop :=
| a_here : after g m m
| a_step : forall x n, after g m x -> In n (outs g x) -> after g m n.

(** Links are the same from both ends, there are no cycles, modifiers have one input and no children. *)
Record valid (g : graph) : Prop := {
  v_kids : forall n m, In n (nodes g) -> In m (kids g n) -> In m (nodes g);
  v_links : forall n m, count_occ Nat.eq_dec (outs g n) m = count_occ Nat.eq_dec (ins g m) n;
  v_outs : forall n m, In m (outs g n) -> In n (nodes g) /\ In m (nodes g);
  v_acyclic : exists rank : nat -> nat, forall n m, In m (outs g n) -> rank n < rank m;
  v_modifier : forall m, In m (nodes g) -> modifier g m = true -> length (ins g m) = 1 /\ kids g m = [];
}.
(** What a modifier that is looked at gives is only used by modifiers. *)
Definition idle (g : graph) (entries : list nat) : Prop :=
  forall m n, reach g entries m -> modifier g m = true -> In n (outs g m) -> modifier g n = true.
(** Descendants of the entry points. *)
Inductive descends (g : graph) (entries : list nat) : nat -> Prop :=
| d_entry : forall n, In n entries -> descends g entries n
| d_kid : forall m n, descends g entries m -> In n (kids g m) -> descends g entries n.
(** Every modifier has exactly one use, and modifies a modifier or a function definition that is loaded. *)
Definition used_once (g : graph) : Prop := forall m, In m (nodes g) -> modifier g m = true -> length (outs g m) = 1.
Definition grounded (g : graph) : Prop :=
  forall m p, In m (nodes g) -> modifier g m = true -> In p (ins g m) -> modifier g p = true \/ loads g p = true.
