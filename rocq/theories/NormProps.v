(** Properties of the normalization of Guppy programs. *)
From Coq Require Import List Bool.
From Verif Require Import NormModel NormSpec NormMain.
Import ListNotations.

(** ** C107: normalizing runs the enabled passes, once each and in order *)

(** Without an error, just the enabled passes were run, in order. *)
Theorem C107_runs : forall H E o (p : passes H E) h h',
  run H E o p h = (h', None) <-> ran p (filter (enabled o) order) h h'.
Proof. exact C107_runs_pf. Qed.

(** With an error, it is that of an enabled pass, the enabled passes before it were run without
    error, and nothing was run after it. *)
Theorem C107_error : forall H E o (p : passes H E) h h' e, run H E o p h = (h', Some e) ->
  exists before after h1, order = before ++ fst (origin e) :: after
    /\ enabled o (fst (origin e)) = true
    /\ ran p (filter (enabled o) before) h h1
    /\ apply p (fst (origin e)) h1 = (h', Some (snd (origin e))).
Proof. exact C107_error_pf. Qed.

(** What each enabled pass keeps is kept: for instance the meaning of a program. *)
Theorem C107_meaning : forall H E V (meaning : H -> V) o (p : passes H E) h h',
  (forall k h h', enabled o k = true -> apply p k h = (h', None) -> meaning h' = meaning h) ->
  run H E o p h = (h', None) -> meaning h' = meaning h.
Proof. exact C107_meaning_pf. Qed.

(** With all options off nothing is done. *)
Theorem C107_off : forall H E o (p : passes H E) h, (forall k, enabled o k = false) ->
  run H E o p h = (h, None).
Proof. exact C107_off_pf. Qed.

(** A setter sets its option and leaves the others; all are on at first. *)
Theorem C107_setters : forall k b o,
  enabled (set k b o) k = b /\ (forall k', k' <> k -> enabled (set k b o) k' = enabled o k')
  /\ enabled default_options k = true.
Proof. exact C107_setters_pf. Qed.

(** So turning off each pass by its setter does nothing, but turning off all but the last one,
    as the test for that does, leaves squashing on. *)
Theorem C107_noop : forall H E (p : passes H E) h o,
  run H E (set Squash false (set Inline false (set Dead false (set Fold false
          (set Untuple false (set Cfgs false o)))))) p h = (h, None)
  /\ run H E (set Inline false (set Dead false (set Fold false
          (set Untuple false (set Cfgs false default_options))))) p h = (p_squash H E p h, None).
Proof. exact C107_noop_pf. Qed.

(** ** Instances: passes that record their names, of which folding fails on long records *)
Definition log : passes (list nat) nat :=
  {| p_cfgs := fun h => (h ++ [1], None); p_untuple := fun h => (h ++ [2], None);
     p_fold := fun h => (h ++ [3], if Nat.ltb 3 (length h) then Some 7 else None);
     p_dead := fun h => (h ++ [4], None);
     p_inline := fun h => h ++ [5]; p_squash := fun h => h ++ [6] |}.
Example run_instance : run _ _ default_options log [] = ([1; 2; 3; 4; 5; 6], None)
  /\ run _ _ (set_dead false default_options) log [] = ([1; 2; 3; 5; 6], None).
Proof. split; reflexivity. Qed.
Example error_instance : run _ _ default_options log [0; 0] = ([0; 0; 1; 2; 3], Some (EFold _ 7)).
Proof. reflexivity. Qed.
Example meaning_instance : forall k h h', enabled default_options k = true ->
  apply log k h = (h', None) -> count_occ PeanoNat.Nat.eq_dec h' 0 = count_occ PeanoNat.Nat.eq_dec h 0.
Proof.
  intros k h h' _ a. destruct k; cbn in a; inversion a; subst; rewrite count_occ_app; cbn;
    apply PeanoNat.Nat.add_0_r.
Qed.
Example off_instance : exists o, forall k, enabled o k = false.
Proof.
  exists {| simplify_cfgs := false; untuple := false; constant_fold := false; dead_funcs := false;
            inline_dfgs := false; squash_borrows := false |}. intro k. destruct k; reflexivity.
Qed.

Print Assumptions C107_runs.
Print Assumptions C107_error.
Print Assumptions C107_meaning.
Print Assumptions C107_off.
Print Assumptions C107_setters.
Print Assumptions C107_noop.
