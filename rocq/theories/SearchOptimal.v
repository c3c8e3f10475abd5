(** Optimality of an exhaustive search, and the comparison of the best state with the list of
    best states. *)
From Coq Require Import List Bool Arith Lia Permutation.
From Verif Require Import PQueueSpec PQueueModel PQueueProofs SearchSpec SearchModel SearchProofs.
Import ListNotations.

Set Implicit Arguments.

Section Large.
Variables (S P : Type) (ltb : P -> P -> bool) (n : nat).
Hypothesis SW : strict_weak ltb.
Variable U : list nat.
Hypothesis HU : length U <= n.

Definition push_in (c : call S P) : Prop := match c with Push _ h _ => In h U | Pop => True end.

(** A queue that could hold every possible hash refuses and evicts nothing. *)
Lemma abs_step_large : forall l sn c o q' acc pop,
  abs_inv ltb n (l, sn) acc pop -> (forall e, In e acc -> In (ehash e) U) -> push_in c ->
  abs_step ltb n (l, sn) c o q' ->
  (forall s h k, c = Push s h k -> In h (snd q')) /\
  Permutation (l ++ accepted [o]) (popped [o] ++ fst q').
Proof.
  intros l sn c o q' acc pop I Hacc Hc A.
  assert (Hroom : forall h, In h U -> ~ In h sn -> length l < n).
  { intros h Hh Hn. assert (X : length (h :: map ehash l) <= length U).
    { apply NoDup_incl_length.
      - constructor.
        + intro X. apply Hn. apply (Permutation_in h (Permutation_sym (a_seen I))).
          apply in_map_iff in X. destruct X as (e & <- & He). apply in_map. apply (a_incl I). apply in_app_iff; auto.
        + pose proof (a_nodup I) as N. rewrite map_app in N. eapply NoDup_app_r; exact N.
      - intros k [<-|Hk]; [assumption|]. apply in_map_iff in Hk. destruct Hk as (e & <- & He).
        apply Hacc. apply (a_incl I). apply in_app_iff; auto. }
    cbn in X. rewrite map_length in X. lia. }
  inversion A as [l0 sn0 s h c1 Hl Hg|l0 sn0 s h c1 Hs|l0 l' sn0 s h c1 Hl Hn Hp
        |l0 l' sn0 s h c1 w Hl Hn Hw Hg Hcw Hp| sn0 |l0 l' sn0 e He Hp]; subst; cbn [snd fst accepted popped flat_map app] in *; rewrite ?app_nil_r.
  - split; [|reflexivity]. intros s' h' k' E. injection E as <- <- <-.
    destruct (in_dec Nat.eq_dec h sn) as [Y|Y]; [exact Y|]. exfalso. specialize (Hroom h Hc Y). lia.
  - split; [|reflexivity]. intros s' h' k' E. injection E as <- <- <-. assumption.
  - split; [intros s' h' k' E; injection E as <- <- <-; left; reflexivity|].
    rewrite Hp. symmetry. apply Permutation_cons_append.
  - exfalso. specialize (Hroom h Hc Hn). lia.
  - split; [discriminate|reflexivity].
  - split; [discriminate|assumption].
Qed.

Lemma abs_run_large : forall q cs os q' acc pop, abs_run ltb n q cs os q' ->
  abs_inv ltb n q acc pop -> (forall e, In e acc -> In (ehash e) U) -> (forall c, In c cs -> push_in c) ->
  (forall s h k, In (Push s h k) cs -> In h (snd q')) /\
  Permutation (fst q ++ accepted os) (popped os ++ fst q').
Proof.
  intros q cs os q' acc pop R. revert acc pop. induction R as [q|q q1 q2 c o cs os A R IH]; intros acc pop I Hacc Hcs.
  - split; [intros ? ? ? []|]. cbn. rewrite app_nil_r. reflexivity.
  - destruct q as [l sn].
    destruct (abs_step_large I Hacc (Hcs c (or_introl eq_refl)) A) as (H1 & H2).
    destruct (IH (acc ++ accepted [o]) (pop ++ popped [o])) as (H3 & H4).
    + eapply abs_step_inv; eassumption.
    + intros e He. apply in_app_iff in He. destruct He as [He|He]; [auto|].
      assert (X : In (Push (estate e) (ehash e) (ecost e)) [c]).
      { apply (abs_run_accepted (ltb := ltb) (n := n) (q := (l, sn)) (q' := q1) (os := [o])); [|exact He].
        econstructor; [exact A|constructor]. }
      destruct X as [->|[]]. apply (Hcs (Push (estate e) (ehash e) (ecost e))). left; reflexivity.
    + intros; apply Hcs; right; assumption.
    + split.
      * intros s h k [->|Hi]; [|eauto]. apply (abs_run_seen R). eauto.
      * rewrite accepted_cons, popped_cons, app_assoc. cbn [fst]. rewrite H2, <- !app_assoc.
        apply Permutation_app_head. exact H4.
Qed.
End Large.

Section Optimal.
Variables (S P C : Type) (ltb : P -> P -> bool).
Variables (hash : C -> S -> option nat) (cost : C -> S -> option P) (next : C -> S -> list S * C).
Hypothesis SW : strict_weak ltb.
Variables (o : options) (s0 : S) (c0 : C).
Notation entry := (entry S P).
Notation loop_inv := (@loop_inv S P C ltb hash cost next o s0 c0).
Notation post := (@post S P C ltb hash cost next o s0 c0).

(** Hash, cost and successors do not depend on the context. *)
Hypothesis Hhash : forall c s, hash c s = hash c0 s.
Hypothesis Hcost : forall c s, cost c s = cost c0 s.
Hypothesis Hnext : forall c s, fst (next c s) = fst (next c0 s).
(** They are defined, and hashes separate, on reachable states. *)
Hypothesis Hdef : forall s, reach next s0 s -> hash c0 s <> None /\ cost c0 s <> None.
Hypothesis Hinj : forall s s' h, reach next s0 s -> reach next s0 s' ->
  hash c0 s = Some h -> hash c0 s' = Some h -> s = s'.

Lemma visited_In : forall q acc vis best bc, loop_inv q acc vis best bc ->
  forall e, In e vis -> In e acc.
Proof.
  intros q acc vis best bc L e He. apply (a_incl (l_abs L)). apply in_app_iff; left. rewrite <- in_rev; assumption.
Qed.

Lemma exhaustive_visits : forall best nb vis ex qf, post best nb vis ex qf ->
  length vis = length (seen qf) ->
  (forall e s' h, In e vis -> In s' (fst (next c0 (estate e))) -> hash c0 s' = Some h -> In h (seen qf)) ->
  forall s, reach next s0 s -> exists e, In e vis /\ estate e = s.
Proof.
  intros best nb vis ex qf (acc & bc & L & Hv & _ & _) Hlen Hclo.
  assert (Hperm := a_seen (l_abs L)). cbn in Hperm.
  assert (Hall : forall h, In h (seen qf) -> exists e, In e vis /\ ehash e = h).
  { intros h Hh.
    assert (N : NoDup (map ehash vis)).
    { pose proof (a_nodup (l_abs L)) as N. rewrite rev_involutive in N. cbn in N. rewrite map_app in N.
      apply (Permutation_NoDup (Permutation_app_comm _ _)) in N. eapply NoDup_app_r; exact N. }
    assert (Hi : incl (map ehash vis) (seen qf)).
    { intros k Hk. apply in_map_iff in Hk. destruct Hk as (e & <- & He).
      eapply Permutation_in; [symmetry; exact Hperm|]. apply in_map. eapply visited_In; [exact L|]. rewrite <- in_rev; assumption. }
    assert (Hi' : incl (seen qf) (map ehash vis)).
    { apply NoDup_length_incl; [exact N | rewrite map_length; lia | exact Hi]. }
    apply Hi' in Hh. apply in_map_iff in Hh. destruct Hh as (e & E & He). eauto. }
  assert (Hstep : forall s h, reach next s0 s -> hash c0 s = Some h -> In h (seen qf) -> exists e, In e vis /\ estate e = s).
  { intros s h Hr Eh Hh. destruct (Hall h Hh) as (e & He & Ee). exists e; split; [assumption|].
    destruct (l_found L e) as (Hre & c & Hc & _).
    { eapply visited_In; [exact L|]. rewrite <- in_rev; assumption. }
    rewrite Hhash, Ee in Hc. eapply Hinj; eassumption. }
  intros s Hr. induction Hr as [|s' s'' c Hr IH Hin].
  - destruct (l_start L) as (e0 & Ha & Es & Ec & Eh & _). apply (Hstep s0 (ehash e0)); [constructor|assumption|].
    eapply Permutation_in; [symmetry; exact Hperm|]. apply in_map; assumption.
  - destruct IH as (e & He & Ee). rewrite Hnext, <- Ee in Hin.
    assert (Hr' : reach next s0 s'') by (eapply reach_step with (s' := s') (c := c0); [exact Hr|rewrite <- Ee; exact Hin]).
    destruct (Hdef Hr') as [Hd _]. destruct (hash c0 s'') as [h|] eqn:Eh; [|congruence].
    apply (Hstep s'' h); [assumption|assumption|]. eapply Hclo; eassumption.
Qed.

Lemma exhaustive_optimal : forall best nb vis ex qf, post best nb vis ex qf ->
  (forall s, reach next s0 s -> exists e, In e vis /\ estate e = s) ->
  forall s k kb, reach next s0 s -> cost c0 s = Some k -> cost c0 best = Some kb -> ltb k kb = false.
Proof.
  intros best nb vis ex qf (acc & bc & L & Hv & _ & _) Hall s k kb Hr Hk Hkb.
  destruct (Hall s Hr) as (e & He & <-).
  assert (Hev : In e (rev vis)) by (rewrite <- in_rev; assumption).
  destruct (l_found L e (visited_In L e Hev)) as (_ & c & _ & Hc). rewrite Hcost, Hk in Hc. injection Hc as ->.
  destruct (l_best L) as (eb & Hb & Es & Ec & _). destruct (l_found L eb Hb) as (_ & c' & _ & Hc').
  rewrite Hcost, Es, Hkb in Hc'. injection Hc' as ->. rewrite Ec. apply (l_least L _ Hev).
Qed.

(** A queue large enough for all reachable states: nothing is lost. *)
Variable U : list nat.
Hypothesis HU : forall s h, reach next s0 s -> hash c0 s = Some h -> In h U.
Hypothesis Hsize : length U <= queue_size o.

Definition complete (q : pq S P) (acc vis : list entry) : Prop :=
  Permutation acc (rev vis ++ ents q) /\
  forall e s' h, In e vis -> In s' (fst (next c0 (estate e))) -> hash c0 s' = Some h -> In h (seen q).

Lemma acc_U : forall q acc vis best bc, loop_inv q acc vis best bc -> forall e, In e acc -> In (ehash e) U.
Proof.
  intros q acc vis best bc L e He. destruct (l_found L e He) as (Hr & c & Hc & _). rewrite Hhash in Hc. eapply HU; eassumption.
Qed.

Lemma loop_complete : forall fuel q acc vis best bc c, loop_inv q acc vis best bc -> complete q acc vis ->
  (forall k, stop o k = false) -> max_visited o = None ->
  match search_loop ltb hash cost next fuel o q c best bc vis with
  | Result b nb vis' ex qf => ex = true /\ length vis' = length (seen qf) /\
     (forall e s' h, In e vis' -> In s' (fst (next c0 (estate e))) -> hash c0 s' = Some h -> In h (seen qf))
  | _ => True
  end.
Proof.
  induction fuel as [|fuel IH]; intros q acc vis best bc c L K Hs Hm; cbn [search_loop]; [exact I|].
  destruct (pq_pop ltb q) as [q1 [e|]] eqn:Ep.
  - destruct (loop_step SW c L Ep) as (q2 & os & E2 & R & B & L2 & Hea & Hsn).
    destruct (if ltb (ecost e) bc then (estate e, ecost e) else (best, bc)) as [best' bc'] eqn:Eb.
    cbn [fst snd] in L2. destruct (next c (estate e)) as [ns c'] eqn:En. cbn [fst snd] in E2, R. rewrite E2.
    rewrite Hs, Hm. cbn [orb]. apply (IH q2 (acc ++ accepted os)); auto.
    destruct (l_found L e Hea) as (Hre & _).
    assert (Hns : ns = fst (next c0 (estate e))) by (rewrite <- (Hnext c), En; reflexivity).
    destruct (abs_run_large SW U Hsize R B (acc_U L)) as (H1 & H2).
    { intros x Hx. destruct (calls_push _ _ _ _ _ Hx) as (s & h & k & ->). apply calls_In in Hx. destruct Hx as (Hx & Hh & _).
      cbn. rewrite Hhash in Hh. eapply HU; [|exact Hh]. eapply reach_step with (c := c0); [exact Hre|]. rewrite <- Hns; exact Hx. }
    cbn [fst snd] in H1, H2. rewrite (abs_run_no_pop R) in H2 by (intros; eapply calls_push; eassumption). cbn [app] in H2.
    destruct K as (K1 & K2). split.
    + rewrite <- H2, app_assoc. apply Permutation_app_tail.
      (* acc is the visited ones and those left in the queue *)
      destruct (pop_ok SW (l_inv L)) as (q1' & r' & E' & A & _). rewrite Ep in E'. injection E' as <- <-.
      inversion A as [ | | | | |l l' sn e' Hl Hp]; subst.
      rewrite K1. cbn [rev]. rewrite <- app_assoc. apply Permutation_app_head. exact Hp.
    + intros x s' h Hx Hs' Hh. destruct Hx as [<-|Hx].
      * assert (Hr' : reach next s0 s') by (eapply reach_step with (c := c0); [exact Hre|exact Hs']).
        destruct (Hdef Hr') as [_ Hk]. destruct (cost c0 s') as [k|] eqn:Ek; [|congruence].
        apply (H1 s' h k). unfold calls. apply in_flat_map. exists s'. split; [rewrite Hns; assumption|].
        rewrite Hhash, Hcost, Hh, Ek. left; reflexivity.
      * apply (abs_run_seen R). cbn. rewrite Hsn. eapply K2; eassumption.
  - destruct (pop_ok SW (l_inv L)) as (q1' & r' & E' & A & I1 & M1 & C1 & HN). rewrite Ep in E'. injection E' as <- <-.
    destruct (HN eq_refl) as [Hq ->]. destruct (finish_ok SW true L) as (nb & Ef & Hnb). rewrite Ef.
    destruct K as (K1 & K2). split; [reflexivity|]. split.
    + pose proof (a_seen (l_abs L)) as Hsn. cbn [snd] in Hsn. rewrite (Permutation_length Hsn), map_length, (Permutation_length K1).
      unfold ents. rewrite Hq. cbn. rewrite app_nil_r. reflexivity.
    + intros e s' h He. apply K2. rewrite in_rev; assumption.
Qed.

Lemma search_complete : forall fuel t, (forall k, stop o k = false) -> max_visited o = None ->
  0 < queue_size o -> length U < fuel ->
  exists best nb vis qf, search ltb hash cost next fuel o t s0 c0 = Result best nb vis true qf /\
    post best nb vis true qf /\
    forall s, reach next s0 s -> exists e, In e vis /\ estate e = s.
Proof.
  intros fuel t Hs Hm Hq Hf.
  assert (HT : search ltb hash cost next fuel o t s0 c0 <> OutOfFuel).
  { eapply search_terminates; [exact SW| |eassumption]. intros s c' h Hr. rewrite Hhash. apply HU; assumption. }
  pose proof (search_post hash cost next SW o s0 c0 fuel t) as HP.
  destruct (Hdef (reach_refl _ _ next s0)) as [Hh Hk].
  destruct (hash c0 s0) as [h|] eqn:Eh; [|congruence]. destruct (cost c0 s0) as [k|] eqn:Ek; [|congruence].
  assert (HC : match search ltb hash cost next fuel o t s0 c0 with
    | Result b nb vis' ex qf => ex = true /\ length vis' = length (seen qf) /\
     (forall e s' h, In e vis' -> In s' (fst (next c0 (estate e))) -> hash c0 s' = Some h -> In h (seen qf))
    | _ => True end).
  { unfold search. rewrite Ek. destruct (start_ok hash cost next SW o s0 c0 t Ek Eh) as [(Hz & q & E)|(Hp & q & e & E & L & Hne & Hpe)]; rewrite E; [exact I|].
    apply (loop_complete fuel c0 L); auto. split; [cbn; symmetry; exact Hpe|]. intros ? ? ? []. }
  destruct (search ltb hash cost next fuel o t s0 c0) as [| | |best nb vis ex qf] eqn:Es.
  - congruence.
  - contradiction.
  - destruct HP as [HP|[HP|HP]]; [discriminate|discriminate|lia].
  - destruct HC as (-> & H1 & H2). destruct HP as (_ & HP & _). exists best, nb, vis, qf.
    split; [reflexivity|]. split; [assumption|]. eapply exhaustive_visits; eassumption.
Qed.
End Optimal.

(** ** Best state and best list *)

Section Agree.
Variables (S P C : Type) (ltb : P -> P -> bool).
Variables (hash : C -> S -> option nat) (cost : C -> S -> option P) (next : C -> S -> list S * C).
Hypothesis SW : strict_weak ltb.
Variables (o : options) (s0 : S) (c0 : C).

Lemma agree : forall best nb vis ex qf n,
  post ltb hash cost next o s0 c0 best nb vis ex qf -> track_n_best o = Some n -> 0 < n ->
  exists es eb, nb = Some (map estate es) /\ In eb vis /\ estate eb = best /\
    (forall e, In e vis -> ltb (ecost e) (ecost eb) = false) /\
    exists e1 r, es = e1 :: r /\ ltb (ecost eb) (ecost e1) = false /\
      (ex = true -> ltb (ecost e1) (ecost eb) = false).
Proof.
  intros best nb vis ex qf n (acc & bc & L & Hv & Hex & Hnb) Hn Hpos.
  rewrite Hn in Hnb. destruct nb as [l|]; [|contradiction]. destruct Hnb as (es & -> & Nb & Ib & Lb & Sb & Mb).
  destruct (l_best L) as (eb & Hb & Es & Ec & Hor).
  assert (Hbv : In eb vis).
  { destruct Hor as [Hor|[Hor _]]; [rewrite in_rev; assumption|]. exfalso. apply Hv.
    rewrite <- (rev_involutive vis), Hor. reflexivity. }
  exists es, eb. split; [reflexivity|]. split; [assumption|]. split; [assumption|].
  split; [intros e He; rewrite Ec; apply (l_least L); rewrite <- in_rev; assumption|].
  destruct es as [|e1 r].
  { exfalso. cbn in Lb. destruct acc; [destruct Hb|]. cbn in Lb. lia. }
  exists e1, r. split; [reflexivity|].
  assert (Hmin : forall e, In e acc -> ltb (ecost e) (ecost e1) = false).
  { intros e He. destruct (in_dec Nat.eq_dec (ehash e) (map ehash (e1 :: r))) as [Hi|Hi].
    - apply in_map_iff in Hi. destruct Hi as (e' & Eh & He').
      assert (e' = e) as -> by (apply (acc_unique acc e' e (a_acc (l_abs L))); auto).
      destruct He' as [->|He']; [apply (sw_irrefl SW)|]. cbn in Sb. apply Sb; assumption.
    - apply Mb; [assumption| |left; reflexivity]. intro X. apply Hi. apply in_map; assumption. }
  split; [apply Hmin; assumption|].
  intro E. specialize (Hex E).
  destruct (a_min (l_abs L) e1) as (e' & He' & Hle); [apply Ib; left; reflexivity|].
  cbn in He'. rewrite rev_involutive, Hex, app_nil_r in He'.
  rewrite Ec. eapply (sw_negtrans SW); [exact Hle|]. apply (l_least L). rewrite <- in_rev; assumption.
Qed.
End Agree.
