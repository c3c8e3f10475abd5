(** Proofs about reachability in a scope. *)
From Coq Require Import List Bool Arith Lia.
From Verif Require Import ScopeModel ScopeSpec.
Import ListNotations.

Section Reach.
Variables (g : graph) (st : state) (starts ends : list (nat * nat)).
Notation reachable := (reachable g st starts).

Lemma existsb_In : forall n l, existsb (Nat.eqb n) l = true <-> In n l.
Proof. intros n l. rewrite existsb_exists. split; [intros (x & J & E); apply Nat.eqb_eq in E; subst; exact J|intros J; exists n; split; [exact J|apply Nat.eqb_refl]]. Qed.
Lemma loop_sound : forall maxe en fuel visited queue, (forall n, In n queue -> inside st n -> reachable n) -> reach_loop g fuel st maxe en visited queue = Some true -> exists n, In n en /\ reachable n.
Proof.
  intros maxe en. induction fuel as [|fuel IH]; intros visited queue Q H; [discriminate|]. cbn [reach_loop] in H. destruct queue as [|n queue]; [discriminate|].
  destruct (position st n) as [k|] eqn:P; [|cbn [orb] in H; apply (IH _ _ (fun m J => Q m (or_intror J)) H)].
  destruct (Nat.ltb maxe k || existsb (Nat.eqb n) visited); [apply (IH _ _ (fun m J => Q m (or_intror J)) H)|]. assert (R : reachable n) by (apply Q; [left; reflexivity|unfold inside; congruence]).
  destruct (existsb (Nat.eqb n) en) eqn:E; [exists n; split; [apply existsb_In; exact E|exact R]|]. apply (IH _ _) in H; [exact H|]. intros m J I. apply in_app_or in J. destruct J as [J|J]; [apply Q; [right; exact J|exact I]|]. eapply Next; eauto.
Qed.
Lemma first_nodes : forall m, In m (map fst (flat_map (fun '(n, p) => targets g n p) starts)) <-> exists n p i, In (n, p) starts /\ In (m, i) (targets g n p).
Proof.
  intros m. rewrite in_map_iff. split.
  - intros ([m' i] & <- & J). apply in_flat_map in J. destruct J as ([n p] & J & T). exists n, p, i. auto.
  - intros (n & p & i & J & T). exists (m, i). split; [reflexivity|]. apply in_flat_map. exists (n, p). auto.
Qed.
Lemma sound : forall fuel, any_reachable_from g fuel st starts ends = Some true -> some_reachable g st starts ends.
Proof.
  intros fuel H. unfold any_reachable_from in H. destruct (max_position st (map fst ends)) as [maxe|]; [|discriminate]. apply loop_sound in H.
  - destruct H as (e & J & R). apply in_map_iff in J. destruct J as ([e' i] & <- & J). exists e', i. auto.
  - intros m J I. apply first_nodes in J. destruct J as (n & p & i & J & T). eapply First; eauto.
Qed.
Lemma max_position_spec : forall l m0, (forall n k, In n l -> position st n = Some k -> exists m, fold_left (fun m n => match position st n, m with Some p, Some q => Some (max p q) | Some p, None => Some p | None, m => m end) l m0 = Some m /\ k <= m) /\
  (forall k, m0 = Some k -> exists m, fold_left (fun m n => match position st n, m with Some p, Some q => Some (max p q) | Some p, None => Some p | None, m => m end) l m0 = Some m /\ k <= m).
Proof.
  induction l as [|a l IH]; intros m0; (split; [intros n k J P|intros k ->]); simpl.
  - destruct J.
  - exists k. auto.
  - destruct J as [->|J]; [|eapply (proj1 (IH _)); eauto]. rewrite P. destruct m0 as [q|].
    + destruct (proj2 (IH (Some (max k q))) _ eq_refl) as (m & E & L). exists m. split; [exact E|lia].
    + apply (proj2 (IH (Some k)) _ eq_refl).
  - destruct (position st a) as [p|]; [|apply (proj2 (IH (Some k)) _ eq_refl)]. destruct (proj2 (IH (Some (max p k))) _ eq_refl) as (m & E & L). exists m. split; [exact E|lia].
Qed.

(** Positions that increase along all edges. *)
Hypothesis forward : forall a b k l, In b (neighbours g a) -> position st a = Some k -> position st b = Some l -> k <= l.
Definition near (maxe n : nat) : Prop := exists k, position st n = Some k /\ k <= maxe.
Lemma loop_complete : forall maxe en fuel visited queue,
  (forall n p m i, In (n, p) starts -> In (m, i) (targets g n p) -> near maxe m -> In m visited \/ In m queue) ->
  (forall a b, In a visited -> In b (neighbours g a) -> near maxe b -> In b visited \/ In b queue) ->
  (forall a, In a visited -> ~ In a en) ->
  reach_loop g fuel st maxe en visited queue = Some false -> forall n, reachable n -> near maxe n -> ~ In n en.
Proof.
  intros maxe en. induction fuel as [|fuel IH]; intros visited queue A B D H; [discriminate|]. cbn [reach_loop] in H. destruct queue as [|n queue].
  - intros n R N. apply D. induction R as [n p m i J T I|a b R IHR J I].
    + destruct (A n p m i J T N) as [X|[]]. exact X.
    + assert (Na : near maxe a). { destruct N as (l & P & L). assert (Ia : inside st a) by (destruct R; assumption). unfold inside in Ia. destruct (position st a) as [k|] eqn:Pa; [|congruence]. exists k. split; [exact Pa|]. assert (X := forward a b k l J Pa P). lia. }
      destruct (B a b (IHR Na) J N) as [X|[]]. exact X.
  - match type of H with (if ?c then _ else _) = _ => destruct c eqn:E end.
    + assert (Z : near maxe n -> In n visited). { intros (k & P & L). rewrite P in E. rewrite (proj2 (Nat.ltb_ge maxe k) L) in E. apply existsb_In. exact E. }
      revert H. apply IH; [| |exact D].
      * intros n' p m i J T N. destruct (A n' p m i J T N) as [X|[<-|X]]; auto.
      * intros a b J1 J2 N. destruct (B a b J1 J2 N) as [X|[<-|X]]; auto.
    + destruct (existsb (Nat.eqb n) en) eqn:F; [discriminate|]. revert H. apply IH.
      * intros n' p m i J T N. destruct (A n' p m i J T N) as [X|[<-|X]]; [left; right; exact X|left; left; reflexivity|right; apply in_or_app; auto].
      * intros a b [<-|J1] J2 N; [right; apply in_or_app; auto|]. destruct (B a b J1 J2 N) as [X|[<-|X]]; [left; right; exact X|left; left; reflexivity|right; apply in_or_app; auto].
      * intros a [<-|J]; [intros J; apply existsb_In in J; congruence|apply D; exact J].
Qed.
Lemma complete : forall fuel, any_reachable_from g fuel st starts ends = Some false -> ~ some_reachable g st starts ends.
Proof.
  intros fuel H (e & i & J & R). assert (Ie : inside st e) by (destruct R; assumption). unfold inside in Ie. destruct (position st e) as [k|] eqn:P; [|congruence]. assert (Je : In e (map fst ends)) by (apply in_map_iff; exists (e, i); auto).
  unfold any_reachable_from in H. destruct (proj1 (max_position_spec (map fst ends) None) e k Je P) as (maxe & M & L). fold (max_position st (map fst ends)) in M. rewrite M in H.
  apply (loop_complete maxe (map fst ends) fuel [] _) with (n := e) in H; [apply H; exact Je| | | |exact R|exists k; auto].
  - intros n p m j J1 J2 _. right. apply first_nodes. exists n, p, j. auto.
  - intros a b [].
  - intros a [].
Qed.
End Reach.

(** Enough fuel: every node is expanded at most once. *)
Section Fuel.
Variables (g : graph) (st : state) (nodes : list nat).
Hypothesis known : forall n k, position st n = Some k -> In n nodes.
Definition weight (visited l : list nat) : nat := list_sum (map (fun n => if existsb (Nat.eqb n) visited then 0 else length (neighbours g n)) l).
Lemma weight_mono : forall v n l, weight (n :: v) l <= weight v l.
Proof. intros v n. induction l as [|a l IH]; unfold weight in *; simpl in *; [lia|]. destruct (Nat.eqb a n); simpl; destruct (existsb (Nat.eqb a) v); lia. Qed.
Lemma weight_drop : forall v n l, In n l -> existsb (Nat.eqb n) v = false -> weight (n :: v) l + length (neighbours g n) <= weight v l.
Proof.
  intros v n. induction l as [|a l IH]; intros J F; [destruct J|]. assert (M := weight_mono v n l). unfold weight in *. simpl in *. destruct J as [->|J].
  - rewrite Nat.eqb_refl, F. simpl. lia.
  - specialize (IH J F). destruct (Nat.eqb a n); simpl; destruct (existsb (Nat.eqb a) v); lia.
Qed.
Lemma loop_total : forall maxe en fuel visited queue, length queue + weight visited nodes < fuel -> reach_loop g fuel st maxe en visited queue <> None.
Proof.
  intros maxe en. induction fuel as [|fuel IH]; intros visited queue L; [lia|]. cbn [reach_loop]. destruct queue as [|n queue]; [discriminate|]. simpl in L.
  match goal with |- (if ?c then _ else _) <> _ => destruct c eqn:E end; [apply IH; lia|]. apply orb_false_iff in E. destruct E as [E F]. destruct (position st n) as [k|] eqn:P; [|discriminate].
  destruct (existsb (Nat.eqb n) en); [discriminate|]. apply IH. rewrite app_length. assert (W := weight_drop visited n nodes (known n k P) F). lia.
Qed.
Lemma fuel_enough : forall starts ends, exists bound, forall fuel, bound <= fuel -> any_reachable_from g fuel st starts ends <> None.
Proof.
  intros starts ends. exists (S (length (map fst (flat_map (fun '(n, p) => targets g n p) starts)) + weight [] nodes)). intros fuel L. unfold any_reachable_from. destruct (max_position st (map fst ends)); [|discriminate]. apply loop_total. lia.
Qed.
End Fuel.
