(** Vocabulary: sequences of rewrites, rewrites that do not meet, and what a call into TKET1 does
    to a circuit. *)
From Coq Require Import NArith List Bool Arith.
From Verif Require Import TraceModel.
Import ListNotations.

Section Traces.
Variable body_t rw_t : Type.
Variable nodes : rw_t -> list nat.
Variable run : rw_t -> body_t -> option body_t.

(** Rewrites that are carried out one after the other. *)
Inductive runs : list rw_t -> body_t -> body_t -> Prop :=
| runs_nil : forall b, runs [] b b
| runs_cons : forall r rs b b1 b2, run r b = Some b1 -> runs rs b1 b2 -> runs (r :: rs) b b2.

(** Two rewrites that share a node. *)
Definition meet (r q : rw_t) : Prop := exists n, In n (nodes r) /\ In n (nodes q).

(** The rewrites that remain if each one that meets an earlier remaining one is left out. *)
Inductive picks : list rw_t -> list rw_t -> list rw_t -> Prop :=
| picks_nil : forall prev, picks prev [] []
| picks_take : forall prev r rs app, (forall q, In q prev -> ~ meet r q) ->
    picks (prev ++ [r]) rs app -> picks prev (r :: rs) (r :: app)
| picks_skip : forall prev r rs app q, In q prev -> meet r q ->
    picks prev rs app -> picks prev (r :: rs) app.

(** What may happen to a circuit that is traced: a rewrite, or several that count as one. *)
Inductive event := One (r : rw_t) | Many (rs : list rw_t).
Definition size (e : event) : nat := match e with One _ => 1 | Many rs => length rs end.
Inductive happens : list event -> body_t -> body_t -> Prop :=
| happens_nil : forall b, happens [] b b
| happens_one : forall r es b b1 b2, run r b = Some b1 -> happens es b1 b2 ->
    happens (One r :: es) b b2
| happens_many : forall rs es b b1 b2, runs rs b b1 -> happens es b1 b2 ->
    happens (Many rs :: es) b b2.
End Traces.
Arguments One {rw_t}. Arguments Many {rw_t}. Arguments size {rw_t}.

Section Tket1.
Variable circuit pass serial text : Type.
Variable to_vec : serial -> option text.
Variable from_str : text -> option serial.
Variable has_nul : text -> bool.
Variable circuit_from_json : text -> option circuit.
Variable circuit_to_json : circuit -> bool * option text.
Variable pass_from_json : text -> option pass.
Variable apply_pass : circuit -> pass -> bool * circuit.

(** The circuit is written, read by TKET1, changed by the pass, written by TKET1 and read. *)
Definition converts (j : text) (s s' : serial) : Prop :=
  exists t c p c' t', to_vec s = Some t /\ has_nul t = false /\ circuit_from_json t = Some c
    /\ has_nul j = false /\ pass_from_json j = Some p /\ apply_pass c p = (true, c')
    /\ circuit_to_json c' = (true, Some t') /\ from_str t' = Some s'.

(** What the library writes can be read, and nothing is written on failure. *)
Definition readable : Prop := forall c ok t,
  circuit_to_json c = (ok, Some t) -> ok = true /\ from_str t <> None.
End Tket1.
