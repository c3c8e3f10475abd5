(** Model of tket/src/passes/guppy.rs, NormalizeGuppy: its options, its setters and the order of
    its passes.  The passes of hugr and BorrowSquashPass are parameters here: each takes a graph
    and gives a graph and maybe an error (the graph is changed in place, so there is one even
    after an error).  BorrowSquashPass itself is modelled in BorrowModel. *)
From Coq Require Import List Bool.
Import ListNotations.

(** guppy.rs:18-31 the options. *)
Record options := { simplify_cfgs : bool; untuple : bool; constant_fold : bool; dead_funcs : bool;
                    inline_dfgs : bool; squash_borrows : bool }.

(** guppy.rs:34-63 the setters. *)
Definition set_cfgs (b : bool) (o : options) : options :=
  {| simplify_cfgs := b; untuple := untuple o; constant_fold := constant_fold o;
     dead_funcs := dead_funcs o; inline_dfgs := inline_dfgs o; squash_borrows := squash_borrows o |}.
Definition set_untuple (b : bool) (o : options) : options :=
  {| simplify_cfgs := simplify_cfgs o; untuple := b; constant_fold := constant_fold o;
     dead_funcs := dead_funcs o; inline_dfgs := inline_dfgs o; squash_borrows := squash_borrows o |}.
Definition set_fold (b : bool) (o : options) : options :=
  {| simplify_cfgs := simplify_cfgs o; untuple := untuple o; constant_fold := b;
     dead_funcs := dead_funcs o; inline_dfgs := inline_dfgs o; squash_borrows := squash_borrows o |}.
Definition set_dead (b : bool) (o : options) : options :=
  {| simplify_cfgs := simplify_cfgs o; untuple := untuple o; constant_fold := constant_fold o;
     dead_funcs := b; inline_dfgs := inline_dfgs o; squash_borrows := squash_borrows o |}.
Definition set_inline (b : bool) (o : options) : options :=
  {| simplify_cfgs := simplify_cfgs o; untuple := untuple o; constant_fold := constant_fold o;
     dead_funcs := dead_funcs o; inline_dfgs := b; squash_borrows := squash_borrows o |}.
Definition set_squash (b : bool) (o : options) : options :=
  {| simplify_cfgs := simplify_cfgs o; untuple := untuple o; constant_fold := constant_fold o;
     dead_funcs := dead_funcs o; inline_dfgs := inline_dfgs o; squash_borrows := b |}.

(** guppy.rs:66-77 Default. *)
Definition default_options : options :=
  {| simplify_cfgs := true; untuple := true; constant_fold := true; dead_funcs := true;
     inline_dfgs := true; squash_borrows := true |}.

Section Norm.
Variables (H E : Type).

(** The passes.  Inlining and squashing have errors without values, so they give a graph only
    (guppy.rs:101, 106-108). *)
Record passes := { p_cfgs : H -> H * option E; p_untuple : H -> H * option E;
                   p_fold : H -> H * option E; p_dead : H -> H * option E;
                   p_inline : H -> H; p_squash : H -> H }.

(** guppy.rs:117-128 NormalizeGuppyErrors, which tells the pass that failed.  The variant for
    inlining is never made. *)
Inductive norm_error := ECfg (e : E) | EUntuple (e : E) | EFold (e : E) | EDead (e : E).

(** The question mark with its conversion, under a condition. *)
Definition step (on : bool) (f : H -> H * option E) (err : E -> norm_error) (h : H)
  (next : H -> H * option norm_error) : H * option norm_error :=
  if on then match f h with (h, None) => next h | (h, Some e) => (h, Some (err e)) end else next h.

(** guppy.rs:82-112 run. *)
Definition run (o : options) (p : passes) (h : H) : H * option norm_error :=
  step (simplify_cfgs o) (p_cfgs p) ECfg h (fun h =>
  step (untuple o) (p_untuple p) EUntuple h (fun h =>
  step (constant_fold o) (p_fold p) EFold h (fun h =>
  step (dead_funcs o) (p_dead p) EDead h (fun h =>
    let h := if inline_dfgs o then p_inline p h else h in
    let h := if squash_borrows o then p_squash p h else h in
    (h, None))))).
End Norm.
