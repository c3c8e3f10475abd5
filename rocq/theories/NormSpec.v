(** Vocabulary: the passes by name, and records of the passes that were run. *)
From Coq Require Import List Bool.
From Verif Require Import NormModel.
Import ListNotations.

Inductive pass := Cfgs | Untuple | Fold | Dead | Inline | Squash.

(** The option of a pass. *)
Definition enabled (o : options) (k : pass) : bool :=
  match k with
  | Cfgs => simplify_cfgs o | Untuple => untuple o | Fold => constant_fold o
  | Dead => dead_funcs o | Inline => inline_dfgs o | Squash => squash_borrows o
  end.
Definition set (k : pass) : bool -> options -> options :=
  match k with
  | Cfgs => set_cfgs | Untuple => set_untuple | Fold => set_fold
  | Dead => set_dead | Inline => set_inline | Squash => set_squash
  end.

(** A pass as a function, whichever it is; those without errors never fail. *)
Definition apply {H E} (p : passes H E) (k : pass) (h : H) : H * option E :=
  match k with
  | Cfgs => p_cfgs H E p h | Untuple => p_untuple H E p h | Fold => p_fold H E p h
  | Dead => p_dead H E p h
  | Inline => (p_inline H E p h, None) | Squash => (p_squash H E p h, None)
  end.

(** The pass that an error is about, and what it said. *)
Definition origin {E} (e : norm_error E) : pass * E :=
  match e with
  | ECfg _ e => (Cfgs, e) | EUntuple _ e => (Untuple, e) | EFold _ e => (Fold, e) | EDead _ e => (Dead, e)
  end.

(** [ran p ks h h']: the passes [ks] run one after the other, without errors. *)
Inductive ran {H E} (p : passes H E) : list pass -> H -> H -> Prop :=
| ran_nil : forall h, ran p [] h h
| ran_cons : forall k ks h h1 h', apply p k h = (h1, None) -> ran p ks h1 h' -> ran p (k :: ks) h h'.

(** The order that the comments ask for: untuple before folding, folding before squashing. *)
Definition order : list pass := [Cfgs; Untuple; Fold; Dead; Inline; Squash].
