(** The loop that removes all tuples that can be removed. *)
From Coq Require Import List Bool Arith Lia.
From Verif Require Import PatSpec TupModel TupSpec TupProofs TupSim.
Import ListNotations.
Section Loop.
Variable O : Type.
Variable fits : O -> list typ -> list typ -> Prop.
Notation region := (region O).
Definition count_unpacks (l : list (node O)) : nat := length (filter (fun x => is_unpack_tuple (t_op x)) l).
Lemma next_fresh (c : region) : ~ In (next_id c) (map t_id (t_nodes c)).
Proof.
  unfold next_id. intros I. assert (H : forall i l, In i l -> i <= fold_right Nat.max 0 l) by (intros i l; induction l as [|j l IH]; simpl; [intros []|intros [->|J]; [lia|specialize (IH J); lia]]).
  apply H in I. lia.
Qed.
Lemma first_some (c : region) l : match first_rewrite c l with NoRewrite => forall x, In x l -> make_rewrite c x = NoRewrite
  | o => exists x, In x l /\ make_rewrite c x = o end.
Proof.
  induction l as [|x l IH]; simpl; [intros x []|]. destruct (make_rewrite c x) eqn:E.
  - destruct (first_rewrite c l); [intros y [<-|I]; auto|destruct IH as (y & I & F); exists y; auto|destruct IH as (y & I & F); exists y; auto].
  - exists x; auto.
  - exists x; auto.
Qed.
Lemma rewrite_pack (c : region) x : make_rewrite c x <> NoRewrite -> exists n, t_op x = MakeTuple n.
Proof. unfold make_rewrite. destruct (t_op x); try congruence. eauto. Qed.
Lemma apply_decreases (c : region) ty x r : valid c -> typed fits ty c -> In x (t_nodes c) -> make_rewrite c x = Rewrite r ->
  count_unpacks (t_nodes (apply c r (next_id c))) < count_unpacks (t_nodes c).
Proof.
  intros Hv Ht Hx Hr. destruct (rewrite_pack c x) as (n & Ho); [congruence|]. pose proof (next_fresh c) as Hf. simpl.
  pose proof (us_ne O c x n Ho r Hr) as Ne. destruct (unpack_nodes c (Out (t_id x) 0)) as [|u ul] eqn:Eu; [congruence|].
  assert (Iu : In u (unpack_nodes c (Out (t_id x) 0))) by (rewrite Eu; left; auto).
  destruct (Hus O c fits ty Ht x n Hx Ho u Iu) as (Iu' & Ou & _).
  assert (H : forall l, incl l (t_nodes c) -> count_unpacks (flat_map (apply_node r (next_id c)) l) + (if in_dec Nat.eq_dec (t_id u) (map t_id l) then 1 else 0) <= count_unpacks l).
  { induction l as [|y l IH]; intros I; [simpl; auto|]. specialize (IH (fun z J => I z (or_intror J))). assert (Iy : In y (t_nodes c)) by (apply I; left; auto).
    change (flat_map (apply_node r (next_id c)) (y :: l)) with (apply_node r (next_id c) y ++ flat_map (apply_node r (next_id c)) l). unfold count_unpacks in *. rewrite filter_app, app_length.
    assert (Hne : y <> u -> t_id y <> t_id u) by (intros N E; apply N, (ids_inj _ _ _ (va_ids Hv)); auto).
    assert (Hin : y <> u -> (if in_dec Nat.eq_dec (t_id u) (map t_id (y :: l)) then 1 else 0) = (if in_dec Nat.eq_dec (t_id u) (map t_id l) then 1 else 0)).
    { intros N. specialize (Hne N). destruct (in_dec Nat.eq_dec (t_id u) (map t_id (y :: l))) as [[E|J]|J]; [contradiction| |].
      - destruct (in_dec Nat.eq_dec (t_id u) (map t_id l)); [auto|contradiction].
      - destruct (in_dec Nat.eq_dec (t_id u) (map t_id l)); [exfalso; apply J; right; auto|auto]. }
    destruct (node_cases O c Hv fits ty Ht x n Hx Ho y Iy) as [->|[K|[N1 N2]]].
    - rewrite Hin by congruence. rewrite (apply_pack O c Hv fits ty Ht x n Hx Ho r Hr). simpl filter at 3. rewrite Ho. simpl is_unpack_tuple. cbv iota. match goal with |- context [if ?b then [_] else []] => destruct b end; simpl; rewrite ?Ho; simpl; lia.
    - rewrite (apply_us O c Hv fits ty Ht x n Hx Ho r Hr) by auto. destruct (Hus O c fits ty Ht x n Hx Ho y K) as (_ & Oy & _). simpl filter at 3. rewrite Oy. simpl length.
      destruct (in_dec Nat.eq_dec (t_id u) (map t_id (y :: l))), (in_dec Nat.eq_dec (t_id u) (map t_id l)); simpl; lia.
    - rewrite Hin by (intros ->; contradiction). rewrite (apply_other O c Hv fits ty Ht x n Hx Ho r Hr) by auto. simpl. destruct (is_unpack_tuple (t_op y)); simpl; lia. }
  specialize (H (t_nodes c) (incl_refl _)). destruct (in_dec Nat.eq_dec (t_id u) (map t_id (t_nodes c))) as [_|F]; [lia|exfalso; apply F, in_map; auto].
Qed.
(** What is true of the region that the loop returns. *)
Variables V G : Type.
Variable pack : list V -> V.
Variable unpack : V -> list V.
Hypothesis unpack_pack : forall l, unpack (pack l) = l.
Variable sem : O -> list V -> G -> list V * G.
Variable dummy : V.
Lemma no_rewrite_none (c : region) ty x y n m : valid c -> typed fits ty c -> In x (t_nodes c) -> In y (t_nodes c) -> t_op x = MakeTuple n -> t_op y = UnpackTuple m -> make_rewrite c x = NoRewrite -> ~ In (Out (t_id x) 0) (t_args y).
Proof.
  intros Hv Ht Ix Iy Ox Oy N A. unfold make_rewrite in N. rewrite Ox in N. cbv zeta in N. pose proof (us_in O c fits ty Ht x y m Iy Oy A) as U.
  destruct (unpack_nodes c (Out (t_id x) 0)); [destruct U|]. unfold remove_pack_unpack in N. destruct (Nat.eqb _ _); discriminate.
Qed.
Theorem loop_spec fuel : forall (c : region) ty, valid c -> typed fits ty c -> count_unpacks (t_nodes c) <= fuel ->
  exists o, untuple fuel c = Some o /\ forall d, o = Some d -> valid d /\
    (exists ty', typed fits ty' d /\ map ty' (t_outs d) = map ty (t_outs c) /\ forall k, ty' (Inp k) = ty (Inp k)) /\ t_inputs d = t_inputs c /\
    (forall inputs g, results pack unpack sem dummy d inputs g = results pack unpack sem dummy c inputs g) /\
    (forall x y n m, In x (t_nodes d) -> In y (t_nodes d) -> t_op x = MakeTuple n -> t_op y = UnpackTuple m -> ~ In (Out (t_id x) 0) (t_args y)).
Proof.
  induction fuel as [|fuel IH]; intros c ty Hv Ht L.
  - simpl. pose proof (first_some c (t_nodes c)) as F. destruct (first_rewrite c (t_nodes c)) as [|r|].
    + exists (Some c). split; auto. intros d [= <-]. split; auto. split; [exists ty; auto|]. repeat split; auto. intros x y n m Ix Iy Ox Oy. eapply no_rewrite_none; eauto.
    + destruct F as (x & Ix & Hr). pose proof (apply_decreases c ty x r Hv Ht Ix Hr). lia.
    + exists None. split; auto. discriminate.
  - simpl. pose proof (first_some c (t_nodes c)) as F. destruct (first_rewrite c (t_nodes c)) as [|r|].
    + exists (Some c). split; auto. intros d [= <-]. split; auto. split; [exists ty; auto|]. repeat split; auto. intros x y n m Ix Iy Ox Oy. eapply no_rewrite_none; eauto.
    + destruct F as (x & Ix & Hr). pose proof (apply_decreases c ty x r Hv Ht Ix Hr) as D. destruct (rewrite_pack c x) as (n & Ho); [congruence|].
      destruct (apply_typed O c Hv fits ty Ht x n Ix Ho r Hr (next_id c) (next_fresh c)) as (T1 & T2 & T3).
      destruct (IH (apply c r (next_id c)) _ (apply_valid O c Hv fits ty Ht x n Ix Ho r Hr (next_id c) (next_fresh c)) T1) as (o & Eo & So); [lia|].
      exists o. split; auto. intros d Ed. destruct (So d Ed) as (S1 & (ty' & S2 & S3 & S4) & S5 & S6 & S7). split; auto. split; [exists ty'; split; [auto|split; [congruence|intros k; rewrite S4; auto]]|]. split; [auto|]. split; auto.
      intros inputs g. rewrite S6. eapply apply_results; eauto. apply next_fresh.
    + exists None. split; auto. discriminate.
Qed.
End Loop.
(** An executable check of validity, for examples. *)
Section Check.
Variable O : Type.
Definition known_b (i : nat) (l : list (node O)) (w : source) : bool :=
  match w with Inp k => Nat.ltb k i | Out n j => existsb (fun x => Nat.eqb (t_id x) n && Nat.ltb j (num_outputs (t_op x))) l end.
Lemma known_ok i l w : known_b i l w = true -> known i l w.
Proof.
  destruct w as [k|n j]; simpl; intros E.
  - left. exists k. split; auto. apply Nat.ltb_lt; auto.
  - right. apply existsb_exists in E. destruct E as (x & I & E). apply andb_prop in E. destruct E as [E L]. apply Nat.eqb_eq in E. apply Nat.ltb_lt in L. subst. exists x, j. auto.
Qed.
Fixpoint order_b (i : nat) (a l : list (node O)) : bool := match l with [] => true | x :: l => forallb (known_b i a) (t_args x) && negb (memb (t_id x) (map t_id a)) && order_b i (a ++ [x]) l end.
Definition valid_b (c : region O) : bool := order_b (t_inputs c) [] (t_nodes c) && forallb (known_b (t_inputs c) (t_nodes c)) (t_outs c).
Lemma order_ok i l : forall p, NoDup (map t_id p) -> order_b i p l = true -> NoDup (map t_id (p ++ l)) /\ forall a x b, l = a ++ x :: b -> forall w, In w (t_args x) -> known i (p ++ a) w.
Proof.
  induction l as [|y l IH]; simpl; intros p D E.
  - rewrite app_nil_r. split; auto. intros [|] ? ? F; discriminate.
  - apply andb_prop in E. destruct E as [E E3]. apply andb_prop in E. destruct E as [E1 E2]. rewrite forallb_forall in E1. rewrite negb_true_iff, memb_not in E2.
    assert (D' : NoDup (map t_id (p ++ [y]))).
    { rewrite map_app. simpl. apply NoDup_incl_NoDup with (l := t_id y :: map t_id p); [constructor; auto|rewrite app_length; simpl; lia|]. intros z [<-|I]; apply in_or_app; simpl; auto. }
    destruct (IH (p ++ [y]) D' E3) as [N K]. rewrite <- app_assoc in N. split; auto. intros [|z a] x b F; injection F as -> F.
    + intros w I. rewrite app_nil_r. apply known_ok, E1; auto.
    + intros w I. specialize (K a x b F w I). rewrite <- app_assoc in K. auto.
Qed.
Lemma valid_ok (c : region O) : valid_b c = true -> valid c.
Proof.
  unfold valid_b. intros E. apply andb_prop in E. destruct E as [E1 E2]. destruct (order_ok _ _ [] (NoDup_nil _) E1) as [N K]. constructor; auto. rewrite forallb_forall in E2. intros w I. apply known_ok, E2; auto.
Qed.
End Check.
