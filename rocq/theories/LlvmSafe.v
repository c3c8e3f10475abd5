(** Programs which use every linear wire once use the handles correctly. *)
From Coq Require Import List Arith Bool ZArith String Permutation Lia.
From Verif Require Import GlobModel GlobSpec GlobProofs LlvmModel LlvmSpec LlvmProofs.
Import ListNotations.

Lemma has_in : forall z l, has z l = true <-> In z l.
Proof.
  intros. unfold has. rewrite existsb_exists. split.
  - intros (x & I & E). apply Z.eqb_eq in E as ->. exact I.
  - intros I. exists z. split; auto. apply Z.eqb_refl.
Qed.
Lemma has_perm : forall z l r, Permutation l (z :: r) -> has z l = true.
Proof. intros. apply has_in. eapply Permutation_in; [symmetry; eauto | now left]. Qed.
Lemma take_perm : forall z l r, Permutation l (z :: r) -> Permutation (take z l) r.
Proof.
  intros z l r P. assert (I : In z l) by (eapply Permutation_in; [symmetry; eauto | now left]).
  assert (Q : Permutation l (z :: take z l)).
  { clear P. induction l as [|x l IH]; [contradiction|]. simpl.
    destruct (Z.eqb x z) eqn:E; [apply Z.eqb_eq in E as ->; reflexivity|].
    destruct I as [->|I]; [rewrite Z.eqb_refl in E; discriminate|].
    rewrite (IH I) at 1. apply perm_swap. }
  apply (Permutation_cons_inv (a := z)). now rewrite <- Q.
Qed.

Definition fits (q r : list Z) (L : ledger) : Prop :=
  l_bad L = false /\ NoDup (l_qubits L) /\ Permutation (l_qubits L) q /\ Permutation (l_refs L) r.
Definition fine (q r : list Z) (L : ledger) : Prop := l_odd L = true \/ fits q r L.

Lemma fits_perm : forall q q' r r' L, fits q r L -> Permutation q q' -> Permutation r r' -> fits q' r' L.
Proof. unfold fits. intros q q' r r' L (A & B & C & E) P Q. repeat split; auto; etransitivity; eauto. Qed.
Lemma fits_use_qubit : forall x q r L, fits (x :: q) r L -> fits (x :: q) r (use_qubit x L).
Proof.
  unfold fits. intros x q r L (A & B & C & E). simpl. rewrite A, (has_perm _ _ _ C). auto.
Qed.
Lemma fits_use_ref : forall x q r L, fits q (x :: r) L -> fits q (x :: r) (use_ref x L).
Proof.
  unfold fits. intros x q r L (A & B & C & E). simpl. rewrite A, (has_perm _ _ _ E). auto.
Qed.
Lemma fits_del_qubit : forall x q r L, fits (x :: q) r L -> fits q r (del_qubit x L).
Proof.
  unfold fits. intros x q r L (A & B & C & E). simpl. rewrite A, (has_perm _ _ _ C).
  pose proof (take_perm _ _ _ C) as T. repeat split; auto.
  eapply Permutation_NoDup; [symmetry; exact T|]. apply (Permutation_NoDup C) in B. now inversion B.
Qed.
Lemma fits_dec_ref : forall x q r L, fits q (x :: r) L -> fits q r (dec_ref x L).
Proof.
  unfold fits. intros x q r L (A & B & C & E). simpl. rewrite A, (has_perm _ _ _ E).
  pose proof (take_perm _ _ _ E) as T. auto.
Qed.
Lemma fits_inc_ref : forall x q r L, fits q (x :: r) L -> fits q (x :: x :: r) (inc_ref x L).
Proof.
  unfold fits. intros x q r L (A & B & C & E). simpl. rewrite A, (has_perm _ _ _ E). auto.
Qed.
Lemma fits_new_qubit : forall x q r L, fits q r L -> fine (x :: q) r (new_qubit x L).
Proof.
  unfold fits, fine. intros x q r L (A & B & C & E). simpl.
  destruct (has x (l_qubits L)) eqn:H; [left; apply orb_true_r | right].
  split; [exact A|]. split; [|split; [now constructor | exact E]].
  constructor; auto. intros I. apply has_in in I. congruence.
Qed.
Lemma fits_new_future : forall x q r L, fits q r L -> fits q (x :: r) (new_future x L).
Proof. unfold fits. intros x q r L (A & B & C & E). simpl. repeat split; auto. Qed.
Lemma odd_sticky : forall L, l_odd L = true ->
  (forall q, l_odd (use_qubit q L) = true) /\ (forall q, l_odd (use_ref q L) = true) /\
  (forall q, l_odd (del_qubit q L) = true) /\ (forall q, l_odd (dec_ref q L) = true) /\
  (forall q, l_odd (inc_ref q L) = true) /\ (forall q, l_odd (new_qubit q L) = true) /\
  (forall q, l_odd (new_future q L) = true) /\ (forall b, l_odd (check b L) = true).
Proof. intros L H. repeat split; intros; simpl; rewrite H; reflexivity. Qed.

Ltac inner x :=
  match x with
  | context [match ?y with _ => _ end] => inner y
  | _ => destruct x eqn:?
  end.

Section Safe.
Variable D : Type.
Variable M : machine D.
Variable fadd : flt -> flt -> flt.
Notation W := (watched M).

Lemma mean_odd : forall o vs d L r, l_odd L = true -> mean _ W fadd o vs (d, L) = Some r ->
  match r with Go _ e | Panicked e => l_odd (snd e) = true end.
Proof.
  intros o vs d L r OD H. destruct (odd_sticky L OD) as (A1 & A2 & A3 & A4 & A5 & A6 & A7 & A8).
  destruct o; cbn in H; unfold both in H;
    repeat (match type of H with context [match ?x with _ => _ end] => inner x end;
            cbn in H; unfold both in H; try discriminate H);
    try (injection H as <-); cbn; rewrite ?OD; auto.
Qed.

Lemma fine_of : forall q r L, fits q r L -> fine q r L.
Proof. unfold fine; auto. Qed.
Lemma fine_use_qubit : forall x q r L, fine (x :: q) r L -> fine (x :: q) r (use_qubit x L).
Proof. intros x q r L [H|H]; [left; apply odd_sticky, H | right; now apply fits_use_qubit]. Qed.

Ltac split_vals :=
  repeat match goal with
  | H : map ty_of ?vs = _ :: _ |- _ => destruct vs as [|? vs]; [discriminate H|]; simpl in H; injection H as ? H
  | H : map ty_of ?vs = [] |- _ => destruct vs; [|discriminate H]; clear H
  | H : ty_of ?v = _ |- _ => destruct v; try discriminate H; simpl in H; try (injection H as H; subst); clear H
  end.

Lemma mean_fits : forall o ts us vs d L Q R r,
  sig o ts us -> map ty_of vs = ts ->
  fits (flat_map qubit_of vs ++ Q) (flat_map ref_of vs ++ R) L ->
  mean _ W fadd o vs (d, L) = Some r ->
  match r with
  | Go ws e => fine (flat_map qubit_of ws ++ Q) (flat_map ref_of ws ++ R) (snd e)
  | Panicked e => l_bad (snd e) = false
  end.
Proof.
  intros o ts us vs d L Q R r HS T F H.
  destruct HS; try (match goal with H : In ?o [BAnd; BOr; BXor; BEq] |- _ =>
           simpl in H; destruct H as [<-|[<-|[<-|[<-|[]]]]] end);
  try (match goal with |- _ => fail end).
  all: try (match goal with H : context [QBarrier] |- _ => injection H as <-; cbn; apply fine_of; exact F end).
  all: try destruct t as [|]; split_vals; cbn in F; cbn in H; unfold both in H;
    repeat (match type of H with context [match ?x with _ => _ end] => inner x end;
            cbn in H; unfold both in H; try discriminate H);
    try (injection H as <-); cbn [snd fst one flat_map qubit_of ref_of app].
  all: try (apply fine_of; exact F).
  all: try (apply fine_of; apply fits_use_qubit; exact F).
  all: try (apply fine_of; apply fits_dec_ref; exact F).
  all: try (apply fine_of; apply fits_del_qubit; exact F).
  all: try (apply fine_of; apply fits_inc_ref; exact F).
  all: try (apply fine_of; apply fits_del_qubit, fits_use_qubit; exact F).
  all: try (apply fine_of; apply fits_use_qubit, fits_use_qubit; exact F).
  all: try (apply fine_of; apply fits_dec_ref, fits_use_ref; exact F).
  all: try (apply fine_of; apply fits_del_qubit, fits_new_future, fits_use_qubit; exact F).
  all: try (apply fine_of; apply fits_use_qubit, fits_new_future, fits_use_qubit; exact F).
  all: try (destruct F as (B & _); exact B).
  all: try discriminate H.
  - apply fine_of. apply fits_use_qubit in F. destruct (Z.eqb_spec q0 q) as [->|NE].
    + destruct F as (_ & N & P & _). apply (Permutation_NoDup P) in N.
      inversion N as [|? ? NI _]; subst. elim NI. now left.
    + assert (F2 : fits (q :: q0 :: Q) R (use_qubit q0 L)) by (eapply fits_perm; [exact F | apply perm_swap | reflexivity]).
      apply fits_use_qubit in F2. simpl negb.
      assert (F3 : fits (q0 :: q :: Q) R (use_qubit q (use_qubit q0 L)))
        by (eapply fits_perm; [exact F2 | apply perm_swap | reflexivity]).
      destruct F3 as (A & B & C & E). unfold fits. cbn [check l_bad l_qubits l_refs].
      rewrite A. auto.
  - apply fine_use_qubit. now apply fits_new_qubit.
Qed.

(** The bookkeeping changes nothing. *)
Lemma mean_watched : forall o vs d L,
  match mean _ M fadd o vs d, mean _ W fadd o vs (d, L) with
  | Some (Go ws d'), Some (Go ws' e) => ws' = ws /\ fst e = d'
  | Some (Panicked d'), Some (Panicked e) => fst e = d'
  | None, None => True
  | _, _ => False
  end.
Proof.
  intros o vs d L. destruct o; cbn; unfold both; cbn [fst snd];
    repeat (match goal with |- context [match ?x with _ => _ end] => inner x end;
            cbn; unfold both; cbn [fst snd]); auto.
Qed.
Lemma run_watched : forall p env d L,
  match run _ M fadd p env d, run _ W fadd p env (d, L) with
  | Some (Go env' d'), Some (Go env2 e) => env2 = env' /\ fst e = d'
  | Some (Panicked d'), Some (Panicked e) => fst e = d'
  | None, None => True
  | _, _ => False
  end.
Proof.
  induction p as [|[[o ins] outs] p IH]; simpl; intros env d L; auto.
  destruct (lookups env ins) as [vs|]; auto. pose proof (mean_watched o vs d L) as MW.
  destruct (mean _ M fadd o vs d) as [[ws d'|d']|], (mean _ W fadd o vs (d, L)) as [[ws' [d2 L2]|[d2 L2]]|];
    try contradiction; auto.
  destruct MW as [-> E]. simpl in E. subst d2. destruct (bind outs ws env); auto. apply IH.
Qed.

(** ** Programs *)
Definition agree (env : venv) (G : tenv) : Prop :=
  forall w t, lookup G w = Some t -> exists v, lookup env w = Some v /\ ty_of v = t.

Lemma agree_lookups : forall env G ins ts, agree env G -> lookups G ins = Some ts ->
  exists vs, lookups env ins = Some vs /\ map ty_of vs = ts.
Proof.
  intros env G ins ts A. revert ts. induction ins as [|w ins IH]; simpl; intros ts H.
  - injection H as <-. exists []. auto.
  - destruct (lookup G w) as [t|] eqn:E; try discriminate. destruct (lookups G ins); try discriminate.
    injection H as <-. destruct (A _ _ E) as (v & -> & <-). destruct (IH _ eq_refl) as (vs & -> & <-).
    exists (v :: vs). auto.
Qed.
Lemma lookup_in : forall X (G : list (nat * X)) w t, lookup G w = Some t -> In (w, t) G.
Proof.
  induction G as [|[v x] G IH]; simpl; intros w t H; try discriminate.
  destruct (Nat.eqb v w) eqn:E; [apply Nat.eqb_eq in E as ->; injection H as ->; auto | auto].
Qed.
Lemma in_lookup : forall X (G : list (nat * X)) w t, NoDup (map fst G) -> In (w, t) G -> lookup G w = Some t.
Proof.
  induction G as [|[v x] G IH]; simpl; intros w t N H; [contradiction|]. inversion N; subst.
  destruct H as [H|H]; [injection H as -> ->; now rewrite Nat.eqb_refl|].
  destruct (Nat.eqb v w) eqn:E; auto. apply Nat.eqb_eq in E as ->. elim H2.
  apply in_map_iff. exists (w, t). auto.
Qed.
Lemma lookup_none : forall X (G : list (nat * X)) w, lookup G w = None -> ~ In w (map fst G).
Proof.
  induction G as [|[v x] G IH]; simpl; intros w H; auto.
  destruct (Nat.eqb v w) eqn:E; try discriminate. apply Nat.eqb_neq in E.
  intros [K|K]; [congruence | eapply IH; eauto].
Qed.

Lemma flat_map_app : forall X Y (f : X -> list Y) a b, flat_map f (a ++ b) = flat_map f a ++ flat_map f b.
Proof. induction a; simpl; intros; auto. now rewrite IHa, app_assoc. Qed.

Lemma live_split : forall ins G,
  Permutation (live G)
    (map fst (filter (fun x => linear (snd x) && existsb (Nat.eqb (fst x)) ins) G) ++ live (drop ins G)).
Proof.
  intros ins. induction G as [|[w t] G IH]; simpl; auto.
  unfold live, drop in *. simpl. destruct (linear t) eqn:E; simpl.
  - destruct (existsb (Nat.eqb w) ins); simpl; [now constructor|].
    rewrite E. simpl. rewrite IH. apply Permutation_middle.
  - rewrite E. exact IH.
Qed.

Section Kind.
(** [h] gives handles only for values with linear types. *)
Variable h : wval -> list Z.
Hypothesis HL : forall v, linear (ty_of v) = false -> h v = [].

Lemma held_ins : forall env G ins vs, agree env G -> lookups env ins = Some vs ->
  (exists ts, lookups G ins = Some ts) ->
  flat_map h vs = held h env (lin_ins ins G).
Proof.
  intros env G ins vs A. revert vs. induction ins as [|w ins IH]; simpl; intros vs H [ts T].
  - now injection H as <-.
  - destruct (lookup env w) as [v|] eqn:E; try discriminate. destruct (lookups env ins); try discriminate.
    injection H as <-. destruct (lookup G w) as [t|] eqn:EG; try discriminate.
    destruct (lookups G ins) eqn:EL; try discriminate. simpl.
    rewrite (IH _ eq_refl) by eauto. destruct (A _ _ EG) as (v' & EV & TV).
    rewrite E in EV. injection EV as <-. destruct (linear t) eqn:LT.
    + unfold held. simpl. rewrite E. reflexivity.
    + rewrite HL by congruence. reflexivity.
Qed.

Lemma held_split : forall env G ins vs ts, NoDup (map fst G) -> NoDup (lin_ins ins G) ->
  agree env G -> lookups env ins = Some vs -> lookups G ins = Some ts ->
  Permutation (held h env (live G)) (flat_map h vs ++ held h env (live (drop ins G))).
Proof.
  intros env G ins vs ts N NL A LV LG.
  rewrite (held_ins env G ins vs A LV) by eauto.
  unfold held. rewrite <- flat_map_app. apply Permutation_flat_map.
  rewrite (live_split ins G). apply Permutation_app_tail.
  apply NoDup_Permutation; auto.
  - clear -N. induction G as [|[w t] G IH]; simpl in *; [constructor|]. inversion N; subst.
    destruct (_ && _); simpl; auto. constructor; auto. intros I. apply H1.
    apply in_map_iff in I as (x & E & I). apply filter_In in I as [I _]. apply in_map_iff. eauto.
  - intros w. unfold lin_ins. rewrite in_map_iff, filter_In. split.
    + intros ([w' t] & E & I). simpl in E. subst w'. apply filter_In in I as [I C]. simpl in C.
      apply andb_true_iff in C as [C1 C2]. apply existsb_exists in C2 as (x & I2 & E2).
      apply Nat.eqb_eq in E2 as <-. split; auto. now rewrite (in_lookup _ _ _ _ N I).
    + intros [I C]. destruct (lookup G w) as [t|] eqn:E; try discriminate.
      exists (w, t). split; auto. apply filter_In. split; [now apply lookup_in|]. simpl. rewrite C. simpl.
      apply existsb_exists. exists w. split; auto. apply Nat.eqb_refl.
Qed.

Lemma held_outs : forall env G outs ws, NoDup outs ->
  List.length outs = List.length ws ->
  (forall w, In w outs -> ~ In w (map fst G)) ->
  held h (combine outs ws ++ env) (live (combine outs (map ty_of ws) ++ G))
  = flat_map h ws ++ held h env (live G).
Proof.
  intros env G outs ws N L F.
  assert (E : live (combine outs (map ty_of ws) ++ G) = live (combine outs (map ty_of ws)) ++ live G).
  { unfold live. clear. induction (combine outs (map ty_of ws)) as [|x l IH]; simpl; auto.
    destruct (linear (snd x)); simpl; now rewrite IH. }
  rewrite E. unfold held at 1. rewrite flat_map_app. f_equal.
  - clear E F. assert (G1 : forall (pre : venv), (forall w, In w outs -> lookup pre w = None) ->
      flat_map (fun w => match lookup (pre ++ combine outs ws ++ env) w with Some v => h v | None => [] end)
        (live (combine outs (map ty_of ws))) = flat_map h ws).
    { revert ws L. induction outs as [|o outs IH]; intros [|v ws] L pre P; simpl in *; auto; try discriminate.
      inversion N; subst.
      assert (R : flat_map (fun w => match lookup (pre ++ (o, v) :: combine outs ws ++ env) w with Some v => h v | None => [] end)
        (live (combine outs (map ty_of ws))) = flat_map h ws).
      { rewrite <- (IH H2 ws) with (pre := pre ++ [(o, v)]); auto.
        - apply flat_map_ext. intros w. now rewrite <- app_assoc.
        - intros w I. rewrite lookup_app, (P w) by auto. simpl.
          destruct (Nat.eqb o w) eqn:Q; auto. apply Nat.eqb_eq in Q as ->. contradiction. }
      unfold live in *. simpl. destruct (linear (ty_of v)) eqn:LT; simpl.
      - rewrite R. rewrite lookup_app, (P o) by auto. simpl. now rewrite Nat.eqb_refl.
      - rewrite R, (HL v LT). reflexivity. }
    apply (G1 []). auto.
  - unfold held. assert (IN : forall w, In w (live G) -> ~ In w outs).
    { intros w I O. apply (F w O). unfold live in I. apply in_map_iff in I as (x & E1 & I).
      apply filter_In in I as [I _]. apply in_map_iff. eauto. }
    clear -IN. induction (live G) as [|w l IH]; simpl; auto.
    rewrite IH by (intros; apply IN; now right). f_equal.
    rewrite lookup_app. assert (Q : lookup (combine outs ws) w = None).
    { specialize (IN w (or_introl eq_refl)). clear -IN. revert ws.
      induction outs as [|o outs IH]; intros [|v ws]; simpl; auto.
      destruct (Nat.eqb o w) eqn:Q; [apply Nat.eqb_eq in Q as ->; elim IN; now left|].
      apply IH. intros I; apply IN; now right. }
    now rewrite Q.
Qed.
End Kind.

Lemma mean_types : forall D0 (M0 : machine D0) o ts us vs d, sig o ts us -> map ty_of vs = ts ->
  match mean _ M0 fadd o vs d with
  | Some (Go ws _) => map ty_of ws = us
  | Some (Panicked _) => True
  | None => False
  end.
Proof.
  intros D0 M0 o ts us vs d HS T.
  destruct HS; try (match goal with H : In ?o [BAnd; BOr; BXor; BEq] |- _ =>
           simpl in H; destruct H as [<-|[<-|[<-|[<-|[]]]]] end).
  all: try (match goal with |- context [QBarrier] => exact T end).
  all: try (match goal with H : print_ty ?k = Some _ |- _ =>
         destruct k; simpl in H; try discriminate H; injection H as <- end).
  all: try destruct t as [|]; split_vals; cbn;
    repeat (match goal with |- context [match ?x with _ => _ end] => inner x end; cbn); auto.
Qed.

Lemma lookup_drop : forall ins G w t, NoDup (map fst G) -> lookup (drop ins G) w = Some t -> lookup G w = Some t.
Proof.
  intros ins G w t N H. apply lookup_in in H. apply filter_In in H as [H _]. now apply in_lookup.
Qed.
Lemma drop_keys : forall ins G w, In w (map fst (drop ins G)) -> In w (map fst G).
Proof.
  intros ins G w I. apply in_map_iff in I as (x & E & I). apply filter_In in I as [I _].
  apply in_map_iff. eauto.
Qed.
Lemma drop_nodup : forall ins G, NoDup (map fst G) -> NoDup (map fst (drop ins G)).
Proof.
  intros ins G N. induction G as [|[w t] G IH]; simpl in *; [constructor|]. inversion N; subst.
  destruct (negb _); simpl; auto. constructor; auto. intros I. apply drop_keys in I. auto.
Qed.
Lemma qubit_linear : forall v, linear (ty_of v) = false -> qubit_of v = [].
Proof. destruct v; simpl; auto; discriminate. Qed.
Lemma ref_linear : forall v, linear (ty_of v) = false -> ref_of v = [].
Proof. destruct v; simpl; auto; discriminate. Qed.
Lemma combine_fst : forall X (a : list nat) (b : list X), List.length a = List.length b -> map fst (combine a b) = a.
Proof. induction a; intros [|]; simpl; intros H; auto; try discriminate. f_equal; auto. Qed.

Lemma run_odd : forall p env d L r, l_odd L = true -> run _ W fadd p env (d, L) = Some r ->
  match r with Go _ e | Panicked e => l_odd (snd e) = true end.
Proof.
  induction p as [|[[o ins] outs] p IH]; simpl; intros env d L r O H.
  - now injection H as <-.
  - destruct (lookups env ins) as [vs|]; try discriminate.
    destruct (mean _ W fadd o vs (d, L)) as [[ws [d' L']|e]|] eqn:E; try discriminate.
    + apply (mean_odd o vs d L _ O) in E. destruct (bind outs ws env); try discriminate. simpl in E. exact (IH _ _ _ _ E H).
    + injection H as <-. apply (mean_odd o vs d L _ O) in E. exact E.
Qed.

Lemma run_balanced : forall p G G' env d L r,
  linear_prog p G G' -> NoDup (map fst G) -> agree env G -> balanced env (live G) L ->
  run _ W fadd p env (d, L) = Some r ->
  match r with
  | Go env' e => l_odd (snd e) = true \/ balanced env' (live G') (snd e)
  | Panicked e => l_odd (snd e) = true \/ l_bad (snd e) = false
  end.
Proof.
  induction p as [|[[o ins] outs] p IH]; simpl; intros G G' env d L r LP N A B H.
  - subst G'. injection H as <-. auto.
  - destruct LP as (ts & us & LG & SG & NL & LO & NO & FO & LP & _).
    destruct (agree_lookups _ _ _ _ A LG) as (vs & LV & TV). rewrite LV in H.
    pose proof (mean_types _ W o ts us vs (d, L) SG TV) as MT.
    destruct (mean _ W fadd o vs (d, L)) as [[ws [d' L']|[d' L']]|] eqn:E; try discriminate.
    + assert (LW : List.length outs = List.length ws) by (rewrite LO, <- MT; now rewrite map_length).
      rewrite (bind_len _ _ _ _ LW) in H.
      assert (F : fits (flat_map qubit_of vs ++ held qubit_of env (live (drop ins G)))
                       (flat_map ref_of vs ++ held ref_of env (live (drop ins G))) L).
      { destruct B as (B1 & B2 & B3 & B4). split; auto. split; auto. split.
        - rewrite B3. eapply held_split; eauto. apply qubit_linear.
        - rewrite B4. eapply held_split; eauto. apply ref_linear. }
      apply (mean_fits _ _ _ _ _ _ _ _ _ SG TV F) in E. destruct E as [O|F'].
      * simpl in O. pose proof (run_odd _ _ _ _ _ O H) as R. destruct r; left; exact R.
      * simpl in F'. eapply IH with (L := L'); [exact LP | | | | exact H].
        -- rewrite map_app, (combine_fst _ outs us) by congruence.
           assert (DJ : forall w, In w outs -> ~ In w (map fst (drop ins G))).
           { intros w I K. apply drop_keys in K. revert K. apply lookup_none. auto. }
           pose proof (drop_nodup ins G N) as ND. clear -NO DJ ND.
           induction outs as [|x outs IHo]; simpl; auto. inversion NO; subst. constructor.
           ++ rewrite in_app_iff. intros [I|I]; [auto | apply (DJ x); [now left | auto]].
           ++ apply IHo; auto. intros w I. apply DJ. now right.
        -- intros w t Q. rewrite lookup_app in Q |- *. rewrite <- MT, lookup_combine_map in Q.
           destruct (lookup (combine outs ws) w) as [v|]; simpl in Q.
           ++ injection Q as <-. eauto.
           ++ apply A. eapply lookup_drop; eauto.
        -- destruct F' as (F1 & F2 & F3 & F4). rewrite <- MT.
           assert (DJ : forall w, In w outs -> ~ In w (map fst (drop ins G))).
           { intros w I K. apply drop_keys in K. revert K. apply lookup_none. auto. }
           split; auto. split; auto. split.
           ++ rewrite (held_outs qubit_of qubit_linear); auto.
           ++ rewrite (held_outs ref_of ref_linear); auto.
    + injection H as <-. right.
      assert (F : fits (flat_map qubit_of vs ++ held qubit_of env (live (drop ins G)))
                       (flat_map ref_of vs ++ held ref_of env (live (drop ins G))) L).
      { destruct B as (B1 & B2 & B3 & B4). split; auto. split; auto. split.
        - rewrite B3. eapply held_split; eauto. apply qubit_linear.
        - rewrite B4. eapply held_split; eauto. apply ref_linear. }
      exact (mean_fits _ _ _ _ _ _ _ _ _ SG TV F E).
Qed.

(** Linear programs are typed. *)
Lemma linear_typed : forall p G G' G2, linear_prog p G G' -> NoDup (map fst G) ->
  (forall w t, lookup G w = Some t -> lookup G2 w = Some t) -> typed p G2.
Proof.
  induction p as [|[[o ins] outs] p IH]; simpl; intros G G' G2 LP N S; auto.
  destruct LP as (ts & us & LG & SG & NL & LO & NO & FO & LP & TO).
  exists ts, us, (combine outs us ++ G2). split; [|split; [auto|split; [now apply bind_len|split; [|exact TO]]]].
  - clear -LG S. revert ts LG. induction ins as [|w ins IH]; simpl; intros ts LG; auto.
    destruct (lookup G w) eqn:E; try discriminate. destruct (lookups G ins); try discriminate.
    rewrite (S _ _ E), (IH _ eq_refl). exact LG.
  - eapply IH; [exact LP | |].
    + rewrite map_app, (combine_fst _ outs us) by congruence.
      assert (DJ : forall w, In w outs -> ~ In w (map fst (drop ins G))).
      { intros w I K. apply drop_keys in K. revert K. apply lookup_none. auto. }
      pose proof (drop_nodup ins G N) as ND. clear -NO DJ ND.
      induction outs as [|x outs IHo]; simpl; auto. inversion NO; subst. constructor.
      * rewrite in_app_iff. intros [I|I]; [auto | apply (DJ x); [now left | auto]].
      * apply IHo; auto. intros w I. apply DJ. now right.
    + intros w t Q. rewrite lookup_app in Q |- *. destruct (lookup (combine outs us) w); auto.
      apply S. eapply lookup_drop; eauto.
Qed.
End Safe.
