(** Lemmas on equivalence classes and rule tables. *)
From Coq Require Import List Bool Arith Lia Permutation.
From Verif Require Import EccModel.
Import ListNotations.

Section Ecc.
Variables (circ pat : Type).
Variable num_operations : circ -> nat.
Variable pattern_of : circ -> option pat.
Variable empty_wires : circ -> list nat.

Lemma position_min_ok : forall l, match position_min l with
  | None => l = []
  | Some i => i < length l /\ (forall j, j < length l -> nth i l 0 <= nth j l 0)
  end.
Proof.
  induction l as [|x r IH]; simpl; auto. destruct (position_min r) as [i|].
  - destruct IH as [Hi Hm]. destruct (Nat.leb_spec x (nth i r 0)).
    + split; [lia|]. intros [|j] Hj; [lia|]. specialize (Hm j). lia.
    + split; [lia|]. intros [|j] Hj; [lia|]. apply Hm. lia.
  - subst. split; [simpl; lia|]. intros [|j] Hj; simpl in *; lia.
Qed.

Lemma swap_remove_ok : forall (A : Type) i (l : list A), i < length l ->
  exists x r, swap_remove i l = Some (x, r) /\ nth_error l i = Some x /\ Permutation l (x :: r).
Proof.
  intros A i l Hi. unfold swap_remove. destruct (nth_error l i) as [x|] eqn:E; [|apply nth_error_None in E; lia].
  destruct (rev l) as [|last front] eqn:Er.
  { exfalso. rewrite <- (rev_involutive l), Er in Hi. simpl in Hi. lia. }
  assert (El : l = rev front ++ [last]) by (rewrite <- (rev_involutive l), Er; reflexivity).
  eexists; eexists. split; [reflexivity|]. split; [reflexivity|].
  set (f := rev front) in *. clearbody f. clear Er front. subst l. rewrite app_length in *. cbn [length] in *.
  destruct (Nat.eqb_spec (S i) (length f + 1)) as [Ei|Ei].
  - rewrite nth_error_app2 in E by lia. replace (i - length f) with 0 in E by lia. injection E as <-.
    apply Permutation_sym, Permutation_cons_append.
  - rewrite nth_error_app1 in E by lia. apply nth_error_split in E. destruct E as (a & b & -> & <-).
    assert (E1 : firstn (length a) (a ++ x :: b) = a).
    { rewrite firstn_app, firstn_all, Nat.sub_diag. simpl. apply app_nil_r. }
    assert (E2 : skipn (S (length a)) (a ++ x :: b) = b).
    { replace (a ++ x :: b) with ((a ++ [x]) ++ b) by (rewrite <- app_assoc; reflexivity).
      replace (S (length a)) with (length (a ++ [x])) by (rewrite app_length; simpl; lia).
      rewrite skipn_app, skipn_all, Nat.sub_diag. reflexivity. }
    rewrite E1, E2, <- app_assoc. simpl. rewrite <- Permutation_middle. constructor.
    apply Permutation_app_head. apply Permutation_sym, Permutation_cons_append.
Qed.

Notation eqclass := (eqclass circ).
Lemma from_circuits_ok : forall l : list circ,
  match from_circuits circ num_operations l with
  | None => l = []
  | Some e => Permutation (rep_circ circ e :: other_circs circ e) l /\
              forall c, In c l -> num_operations (rep_circ circ e) <= num_operations c
  end.
Proof.
  intro l. unfold from_circuits. pose proof (position_min_ok (map num_operations l)) as H.
  destruct (position_min (map num_operations l)) as [i|].
  - destruct H as [Hi Hm]. rewrite map_length in *. destruct (swap_remove_ok circ i l Hi) as (x & r & E & En & Hp).
    rewrite E. simpl. split; [apply Permutation_sym; assumption|]. intros c Hc.
    destruct (In_nth_error _ _ Hc) as (j & Ej). assert (Hj : j < length l) by (apply nth_error_Some; congruence).
    specialize (Hm j Hj). 
    rewrite (nth_error_nth (map num_operations l) i 0 (map_nth_error num_operations i l En)) in Hm.
    rewrite (nth_error_nth (map num_operations l) j 0 (map_nth_error num_operations j l Ej)) in Hm. assumption.
  - destruct l; [reflexivity|discriminate].
Qed.

(** Closed form of the rule table. *)
Definition allowed (c : circ) (t : circ) : bool := subset (empty_wires c) (empty_wires t).
Definition row (c : circ) (ts : list circ) : list (pat * list nat * list circ) :=
  match pattern_of c with None => [] | Some p => [(p, empty_wires c, filter (allowed c) ts)] end.
Definition class_rows (e : eqclass) : list (pat * list nat * list circ) :=
  row (rep_circ circ e) (other_circs circ e) ++ flat_map (fun c => row c [rep_circ circ e]) (other_circs circ e).

Definition resolve (targets : list circ) (r : list nat) : option (list circ) :=
  fold_right (fun id acc => match nth_error targets id, acc with
                            | Some t, Some ts => Some (t :: ts) | _, _ => None end) (Some []) r.
Definition resolves (targets : list circ) (x : pat * list nat * list nat) (y : pat * list nat * list circ) : Prop :=
  fst x = fst y /\ resolve targets (snd x) = Some (snd y).

Notation pat_of := (fun c => match pattern_of c with Some p => Some (p, empty_wires c) | None => None end).

Lemma filter_targets_ok : forall targets pew r ts, resolve targets r = Some ts ->
  exists r', filter_targets circ empty_wires targets pew r = Some r' /\
    resolve targets r' = Some (filter (fun t => subset pew (empty_wires t)) ts).
Proof.
  induction r as [|id r IH]; simpl; intros ts H; [injection H as <-; eauto|].
  destruct (nth_error targets id) as [t|] eqn:E; [|discriminate].
  fold (resolve targets r) in H. destruct (resolve targets r) as [ts'|] eqn:Er; [|discriminate].
  injection H as <-.
  destruct (IH ts' eq_refl) as (r' & E1 & E2). rewrite E1. simpl.
  destruct (subset pew (empty_wires t)); eexists; (split; [reflexivity|]); simpl; auto.
  fold (resolve targets r'). rewrite E, E2. reflexivity.
Qed.

(** Rows of a table given as (circuit, rule) pairs. *)
Lemma filter_rows_ok : forall targets (cs : list circ) (rs : list (list nat)) (tss : list (list circ)),
  Forall2 (fun r ts => resolve targets r = Some ts) rs tss -> length cs = length rs ->
  exists out, filter_rows circ pat empty_wires targets (combine (map pat_of cs) rs) = Some out /\
    Forall2 (resolves targets) out (flat_map (fun ct => row (fst ct) (snd ct)) (combine cs tss)).
Proof.
  induction cs as [|c cs IH]; intros rs tss F L; destruct rs as [|r rs]; try discriminate.
  - exists []. split; [reflexivity|constructor].
  - inversion F as [|? ts ? tss' Fr Frs]; subst. destruct (IH rs tss' Frs ltac:(simpl in L; lia)) as (out & E & Fo).
    simpl. unfold row at 1. simpl. destruct (pattern_of c) as [p|]; simpl.
    + destruct (filter_targets_ok targets (empty_wires c) r ts Fr) as (r' & E1 & E2). rewrite E1, E.
      eexists. split; [reflexivity|]. constructor; [|assumption]. split; [reflexivity|exact E2].
    + exists out. split; assumption.
Qed.

Lemma resolve_app : forall targets a b x y, resolve targets a = Some x -> resolve targets b = Some y ->
  resolve targets (a ++ b) = Some (x ++ y).
Proof.
  induction a as [|i a IH]; simpl; intros b x y H1 H2; [injection H1 as <-; assumption|].
  destruct (nth_error targets i) as [t|]; [|discriminate]. fold (resolve targets a) in *. fold (resolve targets (a ++ b)).
  destruct (resolve targets a) as [x'|] eqn:E; [|discriminate]. injection H1 as <-. rewrite (IH b x' y eq_refl H2). reflexivity.
Qed.
Lemma resolve_cons : forall targets id r, resolve targets (id :: r) =
  match nth_error targets id, resolve targets r with Some t, Some ts => Some (t :: ts) | _, _ => None end.
Proof. reflexivity. Qed.
Lemma resolve_seq : forall (pre mid post : list circ),
  resolve (pre ++ mid ++ post) (seq (length pre) (length mid)) = Some mid.
Proof.
  intros pre mid. revert pre. induction mid as [|t mid IH]; intros pre post; [reflexivity|].
  cbn [length seq]. rewrite resolve_cons, nth_error_app2, Nat.sub_diag by lia. simpl nth_error.
  specialize (IH (pre ++ [t]) post). rewrite <- app_assoc in IH. simpl in IH. rewrite app_length in IH. simpl in IH.
  rewrite Nat.add_1_r in IH. simpl app. rewrite IH. reflexivity.
Qed.

(** The targets listed for the circuits of a class. *)
Definition class_targets (e : eqclass) : list (list circ) :=
  other_circs circ e :: map (fun _ => [rep_circ circ e]) (other_circs circ e).

Lemma rules_ok : forall es pre, Forall2 (fun r ts => resolve (pre ++ into_targets circ es) r = Some ts)
  (rules_from circ (length pre) es) (flat_map class_targets es).
Proof.
  induction es as [|e es IH]; intro pre; [constructor|].
  cbn [rules_from into_targets flat_map]. fold (into_targets circ es). apply Forall2_app.
  - unfold class_targets, n_circuits. rewrite Nat.add_sub. constructor.
    + unfold circuits. replace (pre ++ (rep_circ circ e :: other_circs circ e) ++ into_targets circ es)
        with ((pre ++ [rep_circ circ e]) ++ other_circs circ e ++ into_targets circ es) by (rewrite <- !app_assoc; reflexivity).
      replace (length pre + 1) with (length (pre ++ [rep_circ circ e])) by (rewrite app_length; reflexivity).
      apply resolve_seq.
    + assert (R : resolve (pre ++ circuits circ e ++ into_targets circ es) [length pre] = Some [rep_circ circ e]).
      { simpl. rewrite nth_error_app2, Nat.sub_diag by lia. reflexivity. }
      assert (G : forall (os : list circ) k, Forall2 (fun r ts => resolve (pre ++ circuits circ e ++ into_targets circ es) r = Some ts)
        (map (fun _ => [length pre]) (seq k (length os))) (map (fun _ => [rep_circ circ e]) os)).
      { induction os as [|o os IHo]; intro k; constructor; [exact R|apply IHo]. }
      apply G.
  - specialize (IH (pre ++ circuits circ e)). rewrite app_length in IH. unfold circuits at 1 in IH. simpl in IH.
    replace (length pre + n_circuits circ e) with (length pre + S (length (other_circs circ e))) by (unfold n_circuits; lia).
    rewrite <- app_assoc in IH. exact IH.
Qed.

Lemma rules_length : forall es k, length (rules_from circ k es) = length (into_targets circ es).
Proof.
  induction es as [|e es IH]; intro k; [reflexivity|]. cbn [rules_from into_targets flat_map]. fold (into_targets circ es).
  rewrite !app_length, IH. unfold circuits, n_circuits. simpl. rewrite map_length, seq_length. lia.
Qed.
Lemma combine_app : forall (A B : Type) (a a' : list A) (b b' : list B), length a = length b ->
  combine (a ++ a') (b ++ b') = combine a b ++ combine a' b'.
Proof. induction a; destruct b; simpl; intros; try discriminate; auto. f_equal. apply IHa. lia. Qed.

Lemma rows_closed : forall es,
  flat_map (fun ct => row (fst ct) (snd ct)) (combine (into_targets circ es) (flat_map class_targets es)) = flat_map class_rows es.
Proof.
  induction es as [|e es IH]; [reflexivity|]. cbn [into_targets flat_map]. fold (into_targets circ es).
  rewrite combine_app by (unfold circuits, class_targets; simpl; rewrite map_length; reflexivity).
  rewrite flat_map_app, IH. f_equal. unfold circuits, class_targets, class_rows. simpl. f_equal.
  generalize (rep_circ circ e) as x. intro x. induction (other_circs circ e) as [|o os IHo]; [reflexivity|]. simpl. f_equal. assumption.
Qed.

Lemma from_eccs_ok : forall es, exists w, from_eccs circ pat pattern_of empty_wires es = Some w /\
  Forall2 (resolves (targets circ pat w)) (rows circ pat w) (flat_map class_rows es).
Proof.
  intro es. unfold from_eccs, get_patterns.
  destruct (filter_rows_ok (into_targets circ es) (into_targets circ es) (get_rewrite_rules circ es) (flat_map class_targets es))
    as (out & E & F).
  - apply (rules_ok es []).
  - symmetry. apply rules_length.
  - rewrite E. eexists. split; [reflexivity|]. simpl. rewrite <- rows_closed. exact F.
Qed.

Lemma F2_length : forall (A B : Type) (R : A -> B -> Prop) a b, Forall2 R a b -> length a = length b.
Proof. induction 1; simpl; congruence. Qed.
Lemma get_targets_ok : forall es w, from_eccs circ pat pattern_of empty_wires es = Some w ->
  length (rows circ pat w) = length (flat_map class_rows es) /\
  forall i p ew ts, nth_error (flat_map class_rows es) i = Some (p, ew, ts) ->
    (exists r, nth_error (rows circ pat w) i = Some (p, ew, r)) /\ get_targets circ pat w i = Some ts.
Proof.
  intros es w E. destruct (from_eccs_ok es) as (w' & E' & F). rewrite E in E'. injection E' as <-.
  split; [eapply F2_length; exact F|].
  unfold get_targets. revert F. generalize (rows circ pat w), (flat_map class_rows es). intros a b F. induction F as [|[[p' ew'] r] y a b H F IH]; intros i p ew ts Hi; [destruct i; discriminate|].
  destruct i as [|i]; simpl in *; [|apply IH; assumption]. injection Hi as ->. destruct H as [H1 H2]. simpl in *. injection H1 as -> ->.
  split; [eauto|exact H2].
Qed.

Lemma subset_incl : forall a b, subset a b = true <-> incl a b.
Proof.
  intros. unfold subset. rewrite forallb_forall. split; intros H x Hx; specialize (H x Hx).
  - apply existsb_exists in H. destruct H as (y & Hy & E). apply Nat.eqb_eq in E. subst. assumption.
  - apply existsb_exists. exists x. split; [assumption|apply Nat.eqb_refl].
Qed.

(** [partners e c cand]: c is in the class and [cand] is what it may be replaced by. *)
Definition partners (e : eqclass) (c : circ) (cand : list circ) : Prop :=
  (c = rep_circ circ e /\ cand = other_circs circ e) \/ (In c (other_circs circ e) /\ cand = [rep_circ circ e]).

Lemma in_class_rows : forall e p ew ts, In (p, ew, ts) (class_rows e) <->
  exists c cand, partners e c cand /\ pattern_of c = Some p /\ ew = empty_wires c /\ ts = filter (allowed c) cand.
Proof.
  intros. unfold class_rows, partners. rewrite in_app_iff, in_flat_map.
  assert (R : forall c cand, In (p, ew, ts) (row c cand) <-> pattern_of c = Some p /\ ew = empty_wires c /\ ts = filter (allowed c) cand).
  { intros. unfold row. destruct (pattern_of c); simpl; split.
    - intros [E|[]]. injection E as <- <- <-. auto.
    - intros (E & -> & ->). injection E as ->. auto.
    - intros [].
    - intros (E & _). discriminate. }
  split.
  - intros [H|(c & Hc & H)]; apply R in H; eauto 8.
  - intros (c & cand & [[-> ->]|[Hc ->]] & H); [left|right; exists c; split; [assumption|]]; apply R; assumption.
Qed.
End Ecc.
