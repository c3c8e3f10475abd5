(** Proofs of the properties of the normalization of Guppy programs. *)
From Coq Require Import List Bool.
From Verif Require Import NormModel NormSpec.
Import ListNotations.

Lemma C107_runs_pf : forall H E o (p : passes H E) h h',
  run H E o p h = (h', None) <-> ran p (filter (enabled o) order) h h'.
Proof.
  intros H E o p h h'. split.
  - intro a. unfold run, step in a.
    destruct o as [ [] [] [] [] [] [] ]; simpl in *;
      repeat match goal with
      | h : context [match ?f ?x with (_, _) => _ end] |- _ =>
          destruct (f x) as (?, [ ? | ]) eqn:?; [ discriminate | ]
      end; inversion a; subst; repeat (econstructor; [ simpl; eauto | ]); try constructor.
  - intro a. unfold run, step.
    destruct o as [ [] [] [] [] [] [] ]; simpl in *;
      repeat match goal with
      | h : ran _ (_ :: _) _ _ |- _ => inversion h; clear h; subst
      | h : ran _ [] _ _ |- _ => inversion h; clear h; subst
      | h : apply _ _ _ = _ |- _ => simpl in h
      end;
      repeat match goal with
      | h : (_, None) = (_, None) |- _ => inversion h; clear h; subst
      | h : ?f ?x = (_, None) |- context [?f ?x] => rewrite h
      end; reflexivity.
Qed.

Lemma C107_error_pf : forall H E o (p : passes H E) h h' e, run H E o p h = (h', Some e) ->
  exists before after h1, order = before ++ fst (origin e) :: after
    /\ enabled o (fst (origin e)) = true
    /\ ran p (filter (enabled o) before) h h1
    /\ apply p (fst (origin e)) h1 = (h', Some (snd (origin e))).
Proof.
  intros H E o p h h' e a. unfold run, step in a.
  assert (g : forall k before after h1, order = before ++ k :: after -> fst (origin e) = k ->
            enabled o k = true -> ran p (filter (enabled o) before) h h1 ->
            apply p k h1 = (h', Some (snd (origin e))) ->
            exists before after h1, order = before ++ fst (origin e) :: after
              /\ enabled o (fst (origin e)) = true
              /\ ran p (filter (enabled o) before) h h1
              /\ apply p (fst (origin e)) h1 = (h', Some (snd (origin e)))).
  { intros k b c h1 x y z u v. exists b, c, h1. rewrite y. auto. }
  destruct o as [ c u f d i s ].
  destruct c, u, f, d; cbn in a;
    repeat match goal with
    | h : context [match ?f ?x with (_, _) => _ end] |- _ =>
        destruct (f x) as (?, [ ? | ]) eqn:?
    end; inversion a; subst; clear a;
    first
      [ eapply (g Cfgs [] [Untuple; Fold; Dead; Inline; Squash]);
        [ reflexivity | reflexivity | reflexivity | | simpl; eassumption ]
      | eapply (g Untuple [Cfgs] [Fold; Dead; Inline; Squash]);
        [ reflexivity | reflexivity | reflexivity | | simpl; eassumption ]
      | eapply (g Fold [Cfgs; Untuple] [Dead; Inline; Squash]);
        [ reflexivity | reflexivity | reflexivity | | simpl; eassumption ]
      | eapply (g Dead [Cfgs; Untuple; Fold] [Inline; Squash]);
        [ reflexivity | reflexivity | reflexivity | | simpl; eassumption ] ];
    cbn; repeat (econstructor; [ simpl; eassumption | ]); constructor.
Qed.

Lemma C107_meaning_pf : forall H E V (meaning : H -> V) o (p : passes H E) h h',
  (forall k h h', enabled o k = true -> apply p k h = (h', None) -> meaning h' = meaning h) ->
  run H E o p h = (h', None) -> meaning h' = meaning h.
Proof.
  intros H E V m o p h h' k a. apply C107_runs_pf in a.
  assert (g : forall ks h h', (forall x, In x ks -> enabled o x = true) -> ran p ks h h' -> m h' = m h).
  { intros ks x y i r. induction r as [ | z ks x x1 y b r ih ]; [ reflexivity | ].
    rewrite ih by (intros w j; apply i; right; exact j). eapply k; [ | exact b ]. apply i. left. reflexivity. }
  eapply g; [ | exact a ]. intros x i. apply filter_In in i. apply i.
Qed.

Lemma C107_off_pf : forall H E o (p : passes H E) h, (forall k, enabled o k = false) ->
  run H E o p h = (h, None).
Proof.
  intros H E o p h a. apply C107_runs_pf.
  replace (filter (enabled o) order) with (@nil pass); [ constructor | ].
  unfold order. cbn [filter]. rewrite !a. reflexivity.
Qed.

Lemma C107_setters_pf : forall k b o,
  enabled (set k b o) k = b /\ (forall k', k' <> k -> enabled (set k b o) k' = enabled o k')
  /\ enabled default_options k = true.
Proof.
  intros k b o. split; [ destruct k; reflexivity | ].
  split; [ | destruct k; reflexivity ]. intros k' h. destruct k, k'; try congruence; reflexivity.
Qed.

Lemma C107_noop_pf : forall H E (p : passes H E) h o,
  run H E (set Squash false (set Inline false (set Dead false (set Fold false
          (set Untuple false (set Cfgs false o)))))) p h = (h, None)
  /\ run H E (set Inline false (set Dead false (set Fold false
          (set Untuple false (set Cfgs false default_options))))) p h = (p_squash H E p h, None).
Proof.
  intros H E p h o. split; [ | reflexivity ]. apply C107_off_pf. intro k. destruct k; reflexivity.
Qed.

