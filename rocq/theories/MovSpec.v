(** Vocabulary for the properties of circuits put back in place: what is inside what, which nodes are kept, which links leave a
    group of unsupported nodes, and what the decoder is given.  Only the data types of the model are used. *)
From Coq Require Import List Arith Bool.
From Verif Require Import MovModel.
Import ListNotations.

(** [n] is [a] or somewhere inside it. *)
Inductive within (par : nat -> option nat) (a : nat) : nat -> Prop :=
| within_self : within par a a
| within_child : forall n p, par n = Some p -> within par a p -> within par a n.

(** The groups of unsupported nodes that are put back, and all their nodes. *)
Definition group_of (st : step) : list (list nat) := match st with Sub sg _ => [sg_nodes sg] | New _ => [] end.
Definition groups (steps : list step) : list (list nat) := flat_map group_of steps.
Definition moved (steps : list step) : list nat := concat (groups steps).

(** Sources and targets that are values. *)
Section Words.
Variables (ins outs : nat -> nat) (kin kout : port -> kind) (rg : regions) (steps : list step) (h : hugr).

Definition value_in (t : port) : Prop := snd t < ins (fst t).
Definition value_out (s : port) : Prop := snd s < outs (fst s).

(** Nodes that are still there in the end: those outside the region, and unsupported ones with what is inside them. *)
Definition kept (n : nat) : Prop :=
  ~ within (parent h) (r_new rg) n /\
  ((exists m, In m (moved steps) /\ within (parent h) m n) \/ ~ within (parent h) (r_old rg) n).

(** Nodes that are removed: what was in the region, except unsupported nodes and what is inside them. *)
Definition gone (n : nat) : Prop :=
  within (parent h) (r_old rg) n /\ n <> r_old rg /\ forall m, In m (moved steps) -> ~ within (parent h) m n.

(** A value which a group gets from another node of the region; and a value which it gives to one. *)
Definition enters (t : port) : Prop :=
  value_in t /\ exists g s, In g (groups steps) /\ In (fst t) g /\ In (s, t) (links h) /\
    parent h (fst s) = Some (r_old rg) /\ ~ In (fst s) g.
Definition leaves (s : port) : Prop :=
  value_out s /\ exists g t, In g (groups steps) /\ In (fst s) g /\ In (s, t) (links h) /\
    parent h (fst t) = Some (r_old rg) /\ ~ In (fst t) g.

(** Operations of the region that were encoded as commands. *)
Definition encoded (n : nat) : Prop :=
  parent h n = Some (r_old rg) /\ n <> old_in rg /\ n <> old_out rg /\ ~ In n (moved steps).

(** The sources of an input port in a hugr: one, or none. *)
Definition only_source (h' : hugr) (s t : port) : Prop :=
  exists x y, links h' = x ++ (s, t) :: y /\ forall s', ~ In (s', t) (x ++ y).
Definition no_source (h' : hugr) (t : port) : Prop := forall s, ~ In (s, t) (links h').

(** Links of the hugr join ports of the same type; values are joined to values. *)
Definition typed : Prop :=
  forall s t, In (s, t) (links h) -> (value_out s <-> value_in t) /\ kin t = kout s.

(** What the decoder starts from: groups of nodes of the region, each taken once, with the ports found by try_from_nodes; the
    wires found for a group are from nodes made by the decoder or from groups put back before; links made are to nodes made. *)
Record setting (depth root : nat) : Prop := {
  se_depth : exists d, (forall n, d n < depth) /\ forall n p, parent h n = Some p -> d p < d n;
  se_region : parent h (old_in rg) = Some (r_old rg) /\ parent h (old_out rg) = Some (r_old rg) /\ old_in rg <> old_out rg;
  se_new : parent h (new_in rg) = Some (r_new rg) /\ parent h (new_out rg) = Some (r_new rg) /\ new_in rg <> new_out rg;
  se_apart : ~ within (parent h) (r_old rg) (r_new rg) /\ ~ within (parent h) (r_new rg) (r_old rg);
  se_links : forall s t, In (s, t) (links h) -> ~ within (parent h) (r_new rg) (fst s) /\ ~ within (parent h) (r_new rg) (fst t);
  se_once : NoDup (moved steps);
  se_local : forall n, In n (moved steps) -> parent h n = Some (r_old rg) /\ n <> old_in rg /\ n <> old_out rg;
  se_subs : forall sg found, In (Sub sg found) steps -> sg = try_from_nodes ins outs h root (sg_nodes sg);
  se_found : forall before_ sg found after, steps = before_ ++ Sub sg found :: after -> forall t, In t (sg_in sg) ->
      parent h (fst (found t)) = Some (r_new rg) \/ In (fst (found t)) (moved before_);
  se_made : forall es s t, In (New es) steps -> In (s, t) es -> within (parent h) (r_new rg) (fst t)
}.
End Words.
