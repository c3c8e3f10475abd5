(** Lemmas on runs of the abstract queue and on the single-threaded search. *)
From Coq Require Import List Bool Arith Lia Permutation.
From Verif Require Import PQueueSpec PQueueModel PQueueProofs SearchSpec SearchModel.
Import ListNotations.

Set Implicit Arguments.

Lemma NoDup_app_r : forall (A : Type) (l1 l2 : list A), NoDup (l1 ++ l2) -> NoDup l2.
Proof. induction l1; cbn; intros l2 N; [assumption|]. inversion N; auto. Qed.

(** ** Runs of the abstract queue *)

Section AbsRun.
Variables (S P : Type) (ltb : P -> P -> bool) (n : nat).
Hypothesis SW : strict_weak ltb.
Notation entry := (entry S P).

(** [acc]: accepted so far; [pop]: popped so far. *)
Record abs_inv (q : absq S P) (acc pop : list entry) : Prop := {
  a_acc : NoDup (map ehash acc);
  a_seen : Permutation (snd q) (map ehash acc);
  a_nodup : NoDup (map ehash (pop ++ fst q));
  a_incl : incl (pop ++ fst q) acc;
  a_len : length (fst q) <= n;
  a_min : forall e, In e acc -> exists e', In e' (pop ++ fst q) /\ ltb (ecost e) (ecost e') = false
}.

Lemma abs_inv_init : abs_inv ([], []) [] [].
Proof. split; cbn; try constructor; try lia; intros ? []. Qed.

Lemma accepted_cons : forall o (os : list (outcome S P)), accepted (o :: os) = accepted [o] ++ accepted os.
Proof. intros. unfold accepted. cbn. rewrite app_nil_r. reflexivity. Qed.
Lemma popped_cons : forall o (os : list (outcome S P)), popped (o :: os) = popped [o] ++ popped os.
Proof. intros. unfold popped. cbn. rewrite app_nil_r. reflexivity. Qed.

Lemma abs_inv_perm : forall l l' sn acc pop, Permutation l l' -> abs_inv (l, sn) acc pop -> abs_inv (l', sn) acc pop.
Proof.
  intros l l' sn acc pop Hp I. destruct I as [A1 A2 A3 A4 A5 A6]; cbn in *. split; cbn; auto.
  - eapply Permutation_NoDup; [|exact A3]. apply Permutation_map, Permutation_app_head; assumption.
  - intros x Hx. apply A4. eapply Permutation_in; [|exact Hx]. apply Permutation_app_head; symmetry; assumption.
  - rewrite <- Hp. assumption.
  - intros e He. destruct (A6 e He) as (e' & H1 & H2). exists e'; split; [|assumption].
    eapply Permutation_in; [|exact H1]. apply Permutation_app_head; assumption.
Qed.

(** Adding an accepted entry. *)
Lemma abs_inv_add : forall l sn acc pop h c s, abs_inv (l, sn) acc pop -> ~ In h sn -> length l < n ->
  abs_inv ((h, c, s) :: l, h :: sn) (acc ++ [(h, c, s)]) pop.
Proof.
  intros l sn acc pop h c s [A1 A2 A3 A4 A5 A6] Hn Hl; cbn in *.
  assert (Hna : ~ In h (map ehash acc)) by (intro X; apply Hn; eapply Permutation_in; [symmetry; exact A2 | exact X]).
  split; cbn; auto.
  - rewrite map_app; cbn. apply NoDup_snoc; auto.
  - rewrite map_app; cbn. rewrite A2. apply Permutation_cons_append.
  - rewrite map_app; cbn. rewrite map_app in A3.
    eapply Permutation_NoDup; [apply Permutation_middle|]. constructor; [|assumption].
    rewrite <- map_app. intro X. apply Hna. apply in_map_iff in X. destruct X as (e & E & X).
    rewrite <- E. apply in_map, A4, X.
  - intros x Hx. apply in_app_iff in Hx. apply in_app_iff. destruct Hx as [Hx|[<-|Hx]].
    + left; apply A4; apply in_app_iff; auto.
    + right; left; reflexivity.
    + left; apply A4; apply in_app_iff; auto.
  - intros e He. apply in_app_iff in He. destruct He as [He|[<-|[]]].
    + destruct (A6 e He) as (e' & H1 & H2). exists e'; split; [|assumption].
      apply in_app_iff in H1. apply in_app_iff; cbn; tauto.
    + exists (h, c, s). split; [apply in_app_iff; cbn; auto|]. apply (sw_irrefl SW).
Qed.

Lemma NoDup_app_remove_mid : forall (A : Type) (l1 l2 : list A) x, NoDup (l1 ++ x :: l2) -> NoDup (l1 ++ l2).
Proof. intros. eapply NoDup_remove_1; eassumption. Qed.

Lemma abs_step_inv : forall q q' c o acc pop, abs_inv q acc pop -> abs_step ltb n q c o q' ->
  abs_inv q' (acc ++ accepted [o]) (pop ++ popped [o]).
Proof.
  intros q q' c o acc pop I A. destruct A as [l sn s h c Hl Hg|l sn s h c Hs|l l' sn s h c Hl Hn Hp
    |l l' sn s h c w Hl Hn Hw Hg Hc Hp|sn|l l' sn e He Hp]; cbn; rewrite ?app_nil_r; auto.
  - apply abs_inv_perm with ((h, c, s) :: l); [symmetry; assumption|]. apply abs_inv_add; auto.
  - (* eviction: drop w, then add *)
    destruct (in_split _ _ Hw) as (l1 & l2 & ->).
    set (l0 := l1 ++ l2).
    assert (Hp' : Permutation (l1 ++ w :: l2) (w :: l0)) by (symmetry; apply Permutation_middle).
    assert (Hl' : Permutation l' ((h, c, s) :: l0)).
    { apply Permutation_cons_inv with w. rewrite Hp, Hp'. apply perm_swap. }
    apply abs_inv_perm with ((h, c, s) :: l0); [symmetry; assumption|].
    apply (abs_inv_perm Hp') in I. destruct I as [A1 A2 A3 A4 A5 A6]; cbn in *.
    assert (Hna : ~ In h (map ehash acc)) by (intro X; apply Hn; eapply Permutation_in; [symmetry; exact A2 | exact X]).
    assert (A3' : NoDup (map ehash (pop ++ l0))).
    { rewrite map_app in *; cbn in A3. eapply NoDup_remove_1; exact A3. }
    assert (A4' : incl (pop ++ l0) acc).
    { intros x Hx. apply A4. apply in_app_iff in Hx; apply in_app_iff; cbn; tauto. }
    split; cbn; auto.
    + rewrite map_app; cbn. apply NoDup_snoc; auto.
    + rewrite map_app; cbn. rewrite A2. apply Permutation_cons_append.
    + rewrite map_app; cbn. rewrite map_app in A3'.
      eapply Permutation_NoDup; [apply Permutation_middle|]. constructor; [|assumption].
      rewrite <- map_app. intro X. apply Hna. apply in_map_iff in X. destruct X as (e & E & X).
      rewrite <- E. apply in_map, A4', X.
    + intros x Hx. apply in_app_iff in Hx. apply in_app_iff. destruct Hx as [Hx|[<-|Hx]].
      * left; apply A4'; apply in_app_iff; auto.
      * right; left; reflexivity.
      * left; apply A4'; apply in_app_iff; auto.
    + intros e He. apply in_app_iff in He. destruct He as [He|[<-|[]]].
      * destruct (A6 e He) as (e' & H1 & H2). apply in_app_iff in H1. destruct H1 as [H1|[<-|H1]].
        -- exists e'; split; [apply in_app_iff; auto|assumption].
        -- exists (h, c, s); split; [apply in_app_iff; cbn; auto|]. cbn.
           destruct (ltb (ecost e) c) eqn:X; [|reflexivity].
           assert (ltb (ecost e) (ecost w) = true) by (eapply (sw_trans SW); eassumption). congruence.
        -- exists e'; split; [apply in_app_iff; cbn; auto|assumption].
      * exists (h, c, s). split; [apply in_app_iff; cbn; auto|]. apply (sw_irrefl SW).
  - (* pop *)
    apply (abs_inv_perm Hp) in I. destruct I as [A1 A2 A3 A4 A5 A6]; cbn in *. split; cbn; auto.
    + rewrite <- app_assoc. exact A3.
    + rewrite <- app_assoc. exact A4.
    + lia.
    + intros x Hx. rewrite <- app_assoc. apply A6; assumption.
Qed.

Lemma abs_run_inv : forall q cs os q' acc pop, abs_run ltb n q cs os q' -> abs_inv q acc pop ->
  abs_inv q' (acc ++ accepted os) (pop ++ popped os).
Proof.
  intros q cs os q' acc pop R. revert acc pop. induction R as [q|q q1 q2 c o cs os A R IH]; intros acc pop I.
  - cbn. rewrite !app_nil_r. assumption.
  - rewrite accepted_cons, popped_cons, !app_assoc. apply IH. eapply abs_step_inv; eassumption.
Qed.

(** An offered hash ends up accepted, or [n] entries that cost no more have been accepted. *)
Lemma abs_run_offered : forall q cs os q' acc pop, abs_run ltb n q cs os q' -> abs_inv q acc pop ->
  forall s h c, In (Push s h c) cs ->
  In h (map ehash (acc ++ accepted os)) \/
  exists w, NoDup (map ehash w) /\ incl w (acc ++ accepted os) /\ length w = n /\
    forall e, In e w -> ltb c (ecost e) = false.
Proof.
  intros q cs os q' acc pop R. revert acc pop. induction R as [q|q q1 q2 c o cs os A R IH]; intros acc pop I s h c0 Hin.
  - destruct Hin.
  - rewrite accepted_cons, app_assoc. destruct Hin as [->|Hin].
    + inversion A as [l sn s0 h0 c1 Hl Hg|l sn s0 h0 c1 Hs|l l' sn s0 h0 c1 Hl Hn Hp
        |l l' sn s0 h0 c1 w Hl Hn Hw Hg Hc Hp| | ]; subst; cbn.
      * right. exists l. rewrite app_nil_r. destruct I as [A1 A2 A3 A4 A5 A6]; cbn in *. split.
        -- rewrite map_app in A3. eapply NoDup_app_r; exact A3.
        -- split; [|split; [first [reflexivity|exact Hl]|exact Hg]]. intros x Hx. apply in_app_iff; left. apply A4. apply in_app_iff; auto.
      * left. rewrite app_nil_r, map_app, in_app_iff. left. eapply Permutation_in; [apply (a_seen I)|exact Hs].
      * left. rewrite !map_app, !in_app_iff. left; right; left; reflexivity.
      * left. rewrite !map_app, !in_app_iff. left; right; left; reflexivity.
    + eapply IH; [eapply abs_step_inv; eassumption | eassumption].
Qed.
End AbsRun.

(** The n cheapest of the accepted ones are the n cheapest of the offered ones. *)
Lemma cheapest_offered : forall (S P : Type) (ltb : P -> P -> bool) n m (acc best w : list (entry S P)) c,
  strict_weak ltb -> NoDup (map ehash acc) ->
  n_cheapest ltb n acc best -> n <= m -> NoDup (map ehash w) -> incl w acc -> length w = m ->
  (forall e, In e w -> ltb c (ecost e) = false) ->
  length best = n /\ forall x, In x best -> ltb c (ecost x) = false.
Proof.
  intros S P ltb n m acc best w c SW Na (Nb & Ib & Lb & Sb & Mb) Hnm Nw Iw Lw Cw.
  assert (Hacc : m <= length acc).
  { rewrite <- Lw, <- (map_length ehash w), <- (map_length ehash acc). apply NoDup_incl_length; [assumption|].
    intros h Hh. apply in_map_iff in Hh. destruct Hh as (e & <- & He). apply in_map, Iw, He. }
  split; [lia|].
  intros x Hx. destruct (ltb c (ecost x)) eqn:E; [|reflexivity]. exfalso.
  assert (Hwb : incl (map ehash w) (map ehash best)).
  { intros h Hh. apply in_map_iff in Hh. destruct Hh as (e & <- & He).
    destruct (in_dec Nat.eq_dec (ehash e) (map ehash best)) as [Hi|Hi]; [exact Hi|]. exfalso.
    assert (Y : ~ In e best) by (intro Z; apply Hi; apply in_map; assumption).
    pose proof (Mb e x (Iw e He) Y Hx) as X. pose proof (sw_negtrans SW _ _ _ (Cw e He) X). congruence. }
  assert (Hxw : ~ In (ehash x) (map ehash w)).
  { intro X. apply in_map_iff in X. destruct X as (e & Eh & He).
    assert (e = x) as -> by (apply (acc_unique acc e x Na); auto). rewrite (Cw x He) in E. discriminate. }
  assert (Hlen : length (ehash x :: map ehash w) <= length (map ehash best)).
  { apply NoDup_incl_length; [constructor; assumption|]. intros h [<-|Hh]; [apply in_map; assumption | auto]. }
  cbn in Hlen. rewrite !map_length in Hlen. lia.
Qed.

(** ** The search *)

Section SearchP.
Variables (S P C : Type) (ltb : P -> P -> bool).
Variables (hash : C -> S -> option nat) (cost : C -> S -> option P) (next : C -> S -> list S * C).
Hypothesis SW : strict_weak ltb.
Notation entry := (entry S P).
Notation pq := (pq S P).

(** The calls made by a sequence of pushes of states. *)
Definition calls (c : C) (l : list S) : list (call S P) :=
  flat_map (fun s => match hash c s, cost c s with Some h, Some k => [Push s h k] | _, _ => [] end) l.

Lemma push_states_calls : forall l c (q : pq), push_states ltb hash cost q c l =
  match do_calls ltb q (calls c l) with Some (q, _) => Some q | None => None end.
Proof.
  induction l as [|s l IH]; intros c q; [reflexivity|].
  change (calls c (s :: l)) with ((match hash c s, cost c s with Some h, Some k => [Push s h k] | _, _ => [] end) ++ calls c l).
  cbn [push_states]. unfold push_state.
  destruct (hash c s) as [h|]; [|apply IH]. destruct (cost c s) as [k|]; [|apply IH].
  cbn [app do_calls do_call]. destruct (pq_push ltb q s h k) as [[q' r]|]; [|reflexivity]. rewrite IH.
  destruct (do_calls ltb q' (calls c l)) as [[? ?]|]; reflexivity.
Qed.

Lemma calls_In : forall c l s h k, In (Push s h k) (calls c l) ->
  In s l /\ hash c s = Some h /\ cost c s = Some k.
Proof.
  intros c l s h k Hi. unfold calls in Hi. apply in_flat_map in Hi. destruct Hi as (s' & Hs & Hi).
  destruct (hash c s') eqn:Eh; [|destruct Hi]. destruct (cost c s') eqn:Ek; [|destruct Hi].
  destruct Hi as [E|[]]. injection E as -> -> ->. auto.
Qed.
Lemma calls_push : forall c l x, In x (calls c l) -> exists s h k, x = Push s h k.
Proof.
  intros c l x Hi. unfold calls in Hi. apply in_flat_map in Hi. destruct Hi as (s' & Hs & Hi).
  destruct (hash c s'); [|destruct Hi]. destruct (cost c s'); [|destruct Hi].
  destruct Hi as [<-|[]]. eauto.
Qed.

(** What an accepted entry is. *)
Lemma abs_run_accepted : forall n q (cs : list (call S P)) os q', abs_run ltb n q cs os q' ->
  forall e, In e (accepted os) -> In (Push (estate e) (ehash e) (ecost e)) cs.
Proof.
  intros n q cs os q' R. induction R as [q|q q1 q2 c o cs os A R IH]; intros e He; [destruct He|].
  rewrite accepted_cons in He. apply in_app_iff in He. destruct He as [He|He]; [|right; auto].
  left. destruct A; cbn in He; try (destruct He; fail); destruct He as [<-|[]]; reflexivity.
Qed.
Lemma abs_run_no_pop : forall n q (cs : list (call S P)) os q', abs_run ltb n q cs os q' ->
  (forall x, In x cs -> exists s h k, x = Push s h k) -> popped (S:=S) (P:=P) os = [].
Proof.
  intros n q cs os q' R. induction R as [q|q q1 q2 c o cs os A R IH]; intro Hp; [reflexivity|].
  rewrite popped_cons, IH by (intros; apply Hp; right; assumption). rewrite app_nil_r.
  destruct (Hp c (or_introl eq_refl)) as (s & h & k & ->). inversion A; reflexivity.
Qed.
Lemma abs_run_seen : forall n q cs os q', abs_run (S:=S) (P:=P) ltb n q cs os q' -> incl (snd q) (snd q').
Proof.
  intros n q cs os q' R. induction R as [q|q q1 q2 c o cs os A R IH]; [intros x; auto|].
  intros x Hx. apply IH. destruct A; cbn in *; auto.
Qed.

Variables (o : options) (s0 : S) (c0 : C).

Definition found (e : entry) : Prop :=
  reach next s0 (estate e) /\
  exists c, hash c (estate e) = Some (ehash e) /\ cost c (estate e) = Some (ecost e).

(** The loop invariant ([vis] in reverse order of visiting). *)
Record loop_inv (q : pq) (acc vis : list entry) (best : S) (bc : P) : Prop := {
  l_inv : inv ltb q acc;
  l_abs : abs_inv ltb (queue_size o) (ents q, seen q) acc (rev vis);
  l_size : max_size q = queue_size o;
  l_atb : atb_cap q = track_n_best o;
  l_found : forall e, In e acc -> found e;
  l_best : exists eb, In eb acc /\ estate eb = best /\ ecost eb = bc /\
    (In eb vis \/ (vis = [] /\ acc = [eb]));
  l_least : forall e, In e vis -> ltb (ecost e) bc = false;
  l_start : exists e0, In e0 acc /\ estate e0 = s0 /\ cost c0 s0 = Some (ecost e0) /\ hash c0 s0 = Some (ehash e0) /\
    (acc = [e0] \/ In e0 vis)
}.

(** One turn of the loop up to the limits. *)
Lemma loop_step : forall q acc vis best bc c q1 e,
  loop_inv q acc vis best bc -> pq_pop ltb q = (q1, Some e) ->
  let b' := if ltb (ecost e) bc then (estate e, ecost e) else (best, bc) in
  exists q2 os, push_states ltb hash cost q1 (snd (next c (estate e))) (fst (next c (estate e))) = Some q2 /\
    abs_run ltb (queue_size o) (ents q1, seen q1) (calls (snd (next c (estate e))) (fst (next c (estate e)))) os (ents q2, seen q2) /\
    abs_inv ltb (queue_size o) (ents q1, seen q1) acc (rev (e :: vis)) /\
    loop_inv q2 (acc ++ accepted os) (e :: vis) (fst b') (snd b') /\ In e acc /\ seen q1 = seen q.
Proof.
  intros q acc vis best bc c q1 e L E b'.
  destruct (pop_ok SW (l_inv L)) as (q1' & r & E' & A & I1 & M1 & C1 & _). rewrite E in E'. injection E' as <- <-.
  rewrite (l_size L) in A.
  pose proof (abs_step_inv SW (l_abs L) A) as B. cbn [accepted popped flat_map app] in B. rewrite app_nil_r in B.
  change (rev vis ++ [e]) with (rev (e :: vis)) in B.
  set (ns := fst (next c (estate e))). set (c' := snd (next c (estate e))).
  destruct (do_calls_ok SW (calls c' ns) I1) as (q2 & os & Ed & R & I2 & M2 & C2).
  rewrite M1, (l_size L) in R.
  exists q2, os. rewrite push_states_calls, Ed. split; [reflexivity|]. split; [exact R|]. split; [exact B|].
  pose proof (abs_run_inv SW R B) as B2.
  rewrite (abs_run_no_pop R), app_nil_r in B2 by (intros; eapply calls_push; eassumption).
  assert (Hea : In e acc).
  { apply (a_incl B). apply in_app_iff; left. rewrite <- in_rev. left; reflexivity. }
  split; [|split; [assumption|]].
  - split; auto.
    + rewrite M2, M1. apply (l_size L).
    + rewrite C2, C1. apply (l_atb L).
    + intros x Hx. apply in_app_iff in Hx. destruct Hx as [Hx|Hx]; [apply (l_found L _ Hx)|].
      apply (abs_run_accepted R) in Hx. apply calls_In in Hx. destruct Hx as (Hx & Hh & Hk). split; [|eauto].
      apply (@reach_step _ _ next s0 (estate e) (estate x) c); [apply (l_found L _ Hea) | exact Hx].
    + destruct (l_best L) as (eb & Hb & Es & Ec & Hor). unfold b'. destruct (ltb (ecost e) bc) eqn:El; cbn.
      * exists e. split; [apply in_app_iff; auto|]. split; [reflexivity|]. split; [reflexivity|]. left; left; reflexivity.
      * exists eb. split; [apply in_app_iff; auto|]. split; [assumption|]. split; [assumption|]. left.
        destruct Hor as [Hor|[-> ->]]; [right; assumption|]. destruct Hea as [->|[]]. left; reflexivity.
    + intros x Hx. unfold b'. destruct (ltb (ecost e) bc) eqn:El; cbn.
      * destruct Hx as [<-|Hx]; [apply (sw_irrefl SW)|].
        eapply (sw_negtrans SW); [apply (l_least L _ Hx)|]. apply (sw_asym SW); assumption.
      * destruct Hx as [<-|Hx]; [assumption|]. apply (l_least L _ Hx).
    + destruct (l_start L) as (e0 & H0 & Es & Ec & Eh & Hor). exists e0. split; [apply in_app_iff; auto|].
      split; [assumption|]. split; [assumption|]. split; [assumption|]. right.
      destruct Hor as [->|Hor]; [|right; assumption]. destruct Hea as [->|[]]. left; reflexivity.
  - inversion A; reflexivity.
Qed.

Lemma finish_ok : forall q acc vis best bc ex, loop_inv q acc vis best bc ->
  exists nb, finish ltb best q (rev vis) ex = Result best nb (rev vis) ex q /\
    match nb, track_n_best o with
    | None, None => True
    | Some l, Some n => exists es, l = map estate es /\ n_cheapest ltb n acc es
    | _, _ => False
    end.
Proof.
  intros q acc vis best bc ex L. unfold finish. pose proof (l_atb L) as Ha. unfold atb_cap in Ha.
  destruct (atb q) as [[n b]|] eqn:Eq.
  - destruct (into_atb_ok SW (l_inv L) Eq) as (es & E & Hn). rewrite E. eexists; split; [reflexivity|].
    rewrite <- Ha. eauto.
  - unfold into_all_time_best. rewrite Eq. eexists; split; [reflexivity|]. rewrite <- Ha. exact Logic.I.
Qed.

(** What is known when the search returns. *)
Definition post (best : S) (nb : option (list S)) (vis : list entry) (ex : bool) (qf : pq) : Prop :=
  exists acc bc, loop_inv qf acc (rev vis) best bc /\ vis <> [] /\ (ex = true -> ents qf = []) /\
    match nb, track_n_best o with
    | None, None => True
    | Some l, Some n => exists es, l = map estate es /\ n_cheapest ltb n acc es
    | _, _ => False
    end.

Definition within (k : nat) : Prop := match max_visited o with Some m => k < max 1 m | None => True end.

Lemma loop_post : forall fuel q acc vis best bc c r, loop_inv q acc vis best bc ->
  (vis = [] -> ents q <> []) -> within (length vis) \/ vis = [] ->
  search_loop ltb hash cost next fuel o q c best bc vis = r ->
  match r with
  | OutOfFuel => True
  | Panic | NoResult => False
  | Result best nb vis' ex qf => post best nb vis' ex qf /\
      match max_visited o with Some m => length vis' <= max 1 m | None => True end
  end.
Proof.
  induction fuel as [|fuel IH]; intros q acc vis best bc c r L Hne Hw E; cbn [search_loop] in E; [subst; exact Logic.I|].
  destruct (pq_pop ltb q) as [q1 [e|]] eqn:Ep.
  - destruct (loop_step c L Ep) as (q2 & os & E2 & R & B & L2 & Hea & _).
    destruct (if ltb (ecost e) bc then (estate e, ecost e) else (best, bc)) as [best' bc'] eqn:Eb.
    cbn [fst snd] in L2. destruct (next c (estate e)) as [ns c'] eqn:En. cbn [fst snd] in E2. rewrite E2 in E.
    destruct (stop o (length (e :: vis)) || match max_visited o with Some m => Nat.leb m (length (e :: vis)) | None => false end) eqn:Est.
    + destruct (finish_ok false L2) as (nb & Ef & Hnb). rewrite Ef in E. subst r. split.
      * exists (acc ++ accepted os), bc'. rewrite rev_involutive. split; [assumption|].
        split; [cbn; intro X; destruct (rev vis); discriminate|]. split; [discriminate|assumption].
      * unfold within in Hw. destruct (max_visited o) as [m|]; [|exact Logic.I]. rewrite rev_length. cbn [length].
        destruct Hw as [Hw| ->]; cbn [length]; lia.
    + apply orb_false_elim in Est. destruct Est as [_ Est].
      eapply IH; [exact L2 | discriminate | left | exact E].
      unfold within. destruct (max_visited o) as [m|]; [|exact Logic.I]. apply Nat.leb_gt in Est. lia.
  - destruct (pop_ok SW (l_inv L)) as (q1' & r' & E' & A & I1 & M1 & C1 & HN). rewrite Ep in E'. injection E' as <- <-.
    destruct (HN eq_refl) as [Hq ->].
    destruct (finish_ok true L) as (nb & Ef & Hnb). rewrite Ef in E. subst r.
    assert (Hents : ents q = []) by (unfold ents; rewrite Hq; reflexivity).
    assert (Hv : vis <> []) by (intro X; apply Hne in X; congruence).
    split.
    + exists acc, bc. rewrite rev_involutive. split; [assumption|].
      split; [intro X; apply Hv; rewrite <- (rev_involutive vis), X; reflexivity|]. auto.
    + unfold within in Hw. destruct (max_visited o); [|exact Logic.I]. rewrite rev_length. destruct Hw; [lia|congruence].
Qed.

(** The first push. *)
Lemma start_ok : forall t k h, cost c0 s0 = Some k -> hash c0 s0 = Some h ->
  (queue_size o = 0 /\ exists q, push_state ltb hash cost (pq_new (queue_size o) (track_n_best o) t) c0 s0 = Some (q, None)) \/
  (0 < queue_size o /\ exists q e, push_state ltb hash cost (pq_new (queue_size o) (track_n_best o) t) c0 s0 = Some (q, Some e) /\
     loop_inv q [e] [] s0 k /\ ents q <> [] /\ Permutation (ents q) [e]).
Proof.
  intros t k h Ek Eh. unfold push_state. rewrite Ek, Eh.
  set (q0 := pq_new (queue_size o) (track_n_best o) t).
  destruct (push_ok SW s0 h k (inv_new S ltb (queue_size o) (track_n_best o) t)) as (q & r & E & A & I & M & Ca).
  fold q0 in E, A, M, Ca. rewrite E.
  assert (Hn : max_size q0 = queue_size o) by reflexivity.
  rewrite Hn in A. cbn [app] in I.
  inversion A as [l sn s h' c Hl Hg|l sn s h' c Hs|l l' sn s h' c Hl Hns Hp
        |l l' sn s h' c w Hl Hns Hw Hg Hc Hp| | ]; subst.
  - left. split; [cbn in Hl; auto|]. eauto.
  - destruct Hs.
  - right. split; [cbn in Hl; lia|]. exists q, (h, k, s0). split; [reflexivity|].
    cbn [accepted flat_map app] in I.
    pose proof (abs_step_inv SW (abs_inv_init S ltb (queue_size o)) A) as B. cbn in B.
    split.
    + split; auto.
      * unfold atb_cap, q0 in Ca |- *. rewrite Ca. cbn. destruct (track_n_best o); reflexivity.
      * intros e [<-|[]]. split; [apply reach_refl | exists c0; auto].
      * exists (h, k, s0). cbn. auto 10.
      * intros e [].
      * exists (h, k, s0). cbn. auto 10.
    + split; [|exact Hp]. intro X. rewrite X in Hp. apply Permutation_length in Hp. discriminate.
  - destruct Hw.
Qed.

Lemma search_post : forall fuel t, 
  match search ltb hash cost next fuel o t s0 c0 with
  | OutOfFuel => True
  | Panic => False
  | NoResult => cost c0 s0 = None \/ hash c0 s0 = None \/ queue_size o = 0
  | Result best nb vis ex qf => (cost c0 s0 <> None /\ hash c0 s0 <> None /\ 0 < queue_size o) /\
      post best nb vis ex qf /\
      match max_visited o with Some m => length vis <= max 1 m | None => True end
  end.
Proof.
  intros fuel t. unfold search. destruct (cost c0 s0) as [k|] eqn:Ek; [|auto].
  destruct (hash c0 s0) as [h|] eqn:Eh.
  2:{ unfold push_state. rewrite Eh. auto. }
  destruct (start_ok t Ek Eh) as [(Hz & q & E)|(Hp & q & e & E & L & Hne & Hpe)]; rewrite E.
  - auto.
  - pose proof (@loop_post fuel q [e] [] s0 k c0 _ L (fun _ => Hne) (or_intror eq_refl) eq_refl) as X.
    destruct (search_loop ltb hash cost next fuel o q c0 s0 k []); try contradiction; auto.
    split; [|assumption]. repeat split; [discriminate|discriminate|assumption].
Qed.

(** Termination: the visited states have distinct hashes. *)
Lemma loop_terminates : forall (U : list nat) fuel q acc vis best bc c, loop_inv q acc vis best bc ->
  (forall s c' h, reach next s0 s -> hash c' s = Some h -> In h U) ->
  length U < fuel + length vis ->
  search_loop ltb hash cost next fuel o q c best bc vis <> OutOfFuel.
Proof.
  intros U fuel. induction fuel as [|fuel IH]; intros q acc vis best bc c L HU Hf.
  - exfalso. pose proof (a_nodup (l_abs L)) as N. cbn in N. rewrite map_app in N. 
    assert (N' : NoDup (map ehash (rev vis))).
    { clear -N. revert N. generalize (map ehash (rev vis)) (map ehash (ents q)). induction l as [|x l IH]; cbn; intros l' N; [constructor|].
      inversion N; subst. constructor; [intro X; apply H1; apply in_app_iff; auto | eapply IH; eassumption]. }
    assert (Hi : incl (map ehash (rev vis)) U).
    { intros h Hh. apply in_map_iff in Hh. destruct Hh as (e & <- & He).
      destruct (l_found L e) as (Hr & c' & Hc & _); [apply (a_incl (l_abs L)); apply in_app_iff; auto|]. eapply HU; eassumption. }
    pose proof (NoDup_incl_length N' Hi) as X. rewrite map_length, rev_length in X. cbn [length] in Hf. lia.
  - cbn [search_loop]. destruct (pq_pop ltb q) as [q1 [e|]] eqn:Ep.
    + destruct (loop_step c L Ep) as (q2 & os & E2 & R & B & L2 & Hea & _).
      destruct (if ltb (ecost e) bc then (estate e, ecost e) else (best, bc)) as [best' bc'] eqn:Eb.
      cbn [fst snd] in L2. destruct (next c (estate e)) as [ns c'] eqn:En. cbn [fst snd] in E2. rewrite E2.
      destruct (_ || _).
      * destruct (finish_ok false L2) as (nb & Ef & _). rewrite Ef. discriminate.
      * eapply IH; [exact L2|exact HU|cbn [length]; lia].
    + destruct (pop_ok SW (l_inv L)) as (q1' & r' & E' & A & I1 & M1 & C1 & HN). rewrite Ep in E'. injection E' as <- <-.
      destruct (HN eq_refl) as [Hq ->]. destruct (finish_ok true L) as (nb & Ef & Hnb). rewrite Ef. discriminate.
Qed.

Lemma search_terminates : forall (U : list nat) fuel t,
  (forall s c' h, reach next s0 s -> hash c' s = Some h -> In h U) -> length U < fuel ->
  search ltb hash cost next fuel o t s0 c0 <> OutOfFuel.
Proof.
  intros U fuel t HU Hf. unfold search. destruct (cost c0 s0) as [k|] eqn:Ek; [|discriminate].
  destruct (hash c0 s0) as [h|] eqn:Eh.
  2:{ unfold push_state. rewrite Eh. discriminate. }
  destruct (start_ok t Ek Eh) as [(Hz & q & E)|(Hp & q & e & E & L & Hne & Hpe)]; rewrite E; [discriminate|].
  eapply loop_terminates; [exact L|exact HU|cbn; lia].
Qed.

Lemma loop_budget : forall m fuel q acc vis best bc c, loop_inv q acc vis best bc ->
  max_visited o = Some m -> max 1 m <= fuel + length vis -> 0 < fuel ->
  search_loop ltb hash cost next fuel o q c best bc vis <> OutOfFuel.
Proof.
  intros m fuel. induction fuel as [|fuel IH]; intros q acc vis best bc c L Hm Hf Hpos; [lia|].
  cbn [search_loop]. destruct (pq_pop ltb q) as [q1 [e|]] eqn:Ep.
  - destruct (loop_step c L Ep) as (q2 & os & E2 & R & B & L2 & Hea & _).
    destruct (if ltb (ecost e) bc then (estate e, ecost e) else (best, bc)) as [best' bc'] eqn:Eb.
    cbn [fst snd] in L2. destruct (next c (estate e)) as [ns c'] eqn:En. cbn [fst snd] in E2. rewrite E2.
    rewrite Hm. destruct (_ || _) eqn:Es.
    + destruct (finish_ok false L2) as (nb & Ef & _). rewrite Ef. discriminate.
    + apply orb_false_elim in Es. destruct Es as [_ Es]. apply Nat.leb_gt in Es. cbn [length] in Es.
      eapply IH; [exact L2|exact Hm| cbn [length]; lia|]. lia.
  - destruct (pop_ok SW (l_inv L)) as (q1' & r' & E' & A & I1 & M1 & C1 & HN). rewrite Ep in E'. injection E' as <- <-.
    destruct (HN eq_refl) as [Hq ->]. destruct (finish_ok true L) as (nb & Ef & Hnb). rewrite Ef. discriminate.
Qed.

Lemma search_budget : forall m fuel t, max_visited o = Some m -> max 1 m <= fuel ->
  search ltb hash cost next fuel o t s0 c0 <> OutOfFuel.
Proof.
  intros m fuel t Hm Hf. unfold search. destruct (cost c0 s0) as [k|] eqn:Ek; [|discriminate].
  destruct (hash c0 s0) as [h|] eqn:Eh.
  2:{ unfold push_state. rewrite Eh. discriminate. }
  destruct (start_ok t Ek Eh) as [(Hz & q & E)|(Hp & q & e & E & L & Hne & Hpe)]; rewrite E; [discriminate|].
  eapply loop_budget; [exact L|exact Hm| cbn [length]; lia|lia].
Qed.
End SearchP.
