(** Proofs about the clean-up: what is removed in any graph, and how long it takes. *)
From Coq Require Import List Bool Arith Lia.
From Verif Require Import CleanModel CleanSpec CleanProofs.
Import ListNotations.

(** ** What is removed *)
Section Any.
Variable g : graph.
Variable entries : list nat.
Definition owed (n : nat) : Prop := exists m, modifier g m = true /\ reach g entries m /\ after g m n.
Lemma down_owed : forall fuel gone st gone', remove_down g fuel gone st = Ok gone' -> (forall x, In x gone \/ In x st -> owed x) -> forall x, In x gone' -> owed x.
Proof.
  induction fuel as [|fuel IH]; intros gone st gone' E O; destruct st as [|n st]; simpl in E; try discriminate; try (injection E as <-; intros x J; apply O; auto).
  destruct (present g gone n); [|discriminate]. apply (IH _ _ _ E). intros x [[<-|J]|J].
  - apply O. right; left; reflexivity.
  - apply O. auto.
  - apply in_app_iff in J as [J|J]; [|apply O; right; right; exact J]. apply in_rev in J. apply look_iff in J as (_ & J & _).
    destruct (O n (or_intror (or_introl eq_refl))) as (m & A & B & C). exists m. split; [exact A|]. split; [exact B|]. eapply a_step; eauto.
Qed.
Lemma clean_owed : forall fuel gone visited q gone', clean g fuel gone visited q = Ok gone' -> (forall x, In x gone -> owed x) -> (forall x, In x q -> reach g entries x) -> forall x, In x gone' -> owed x.
Proof.
  induction fuel as [|fuel IH]; intros gone visited q gone' E O R; destruct q as [|n q]; simpl in E; try discriminate; try (injection E as <-; exact O).
  assert (R2 : forall x, In x (q ++ filter (fun m => negb (mem m visited)) (children g gone n) ++ filter (fun m => negb (mem m visited)) (all_neighbours g gone n)) -> reach g entries x).
  { intros x J. apply in_app_iff in J as [J|J]; [apply R; right; exact J|]. apply (pushed_iff g gone visited n x) in J as (_ & J & _). eapply r_step; [apply (R n); left; reflexivity|exact J]. }
  destruct (present g gone n && modifier g n) eqn:PM.
  - destruct (remove_down g fuel gone [n]) as [gone2| |] eqn:D; try discriminate. apply (IH _ _ _ _ E); [|exact R2].
    apply (down_owed _ _ _ _ D). intros x [J|[<-|[]]]; [auto|]. exists n. apply andb_true_iff in PM as (_ & M). split; [exact M|]. split; [apply R; left; reflexivity|constructor].
  - apply (IH _ _ _ _ E); auto.
Qed.
End Any.

(** ** How long it takes: functions, each with two calls of the next one *)
(** Function i is node 5i; its children are an input, an output and two calls of function i + 1. *)
Definition tower (d : nat) : graph := {|
  nodes := seq 0 (5 * d + 1);
  kids := fun n => if (n mod 5 =? 0) && (n / 5 <? d) then [n + 1; n + 2; n + 3; n + 4] else [];
  outs := fun n => if (n mod 5 =? 0) && (0 <? n / 5) && (n / 5 <=? d) then [n - 2; n - 1] else [];
  ins := fun n => if ((n mod 5 =? 3) || (n mod 5 =? 4)) && (n / 5 <? d) then [5 * (n / 5) + 5] else [];
  modifier := fun _ => false;
  loads := fun _ => false;
|}.
Lemma five : forall n, exists q r, n = 5 * q + r /\ r < 5 /\ n / 5 = q /\ n mod 5 = r.
Proof. intros n. exists (n / 5), (n mod 5). pose proof (Nat.div_mod n 5). pose proof (Nat.mod_upper_bound n 5). repeat split; lia. Qed.
Lemma five_eq : forall q r, r < 5 -> (5 * q + r) / 5 = q /\ (5 * q + r) mod 5 = r.
Proof. intros q r L. destruct (five (5 * q + r)) as (q2 & r2 & E & L2 & A & B). rewrite A, B. lia. Qed.
Lemma kids_at : forall d q r, r < 5 -> kids (tower d) (5 * q + r) = if (r =? 0) && (q <? d) then [5 * q + 1; 5 * q + 2; 5 * q + 3; 5 * q + 4] else [].
Proof. intros d q r L. cbn [kids tower]. destruct (five_eq q r L) as (-> & ->). destruct r; cbn [Nat.eqb andb]; [|reflexivity]. rewrite !Nat.add_0_r. reflexivity. Qed.
Lemma outs_at : forall d q r, r < 5 -> outs (tower d) (5 * q + r) = match q with S p => if (r =? 0) && (q <=? d) then [5 * p + 3; 5 * p + 4] else [] | 0 => [] end.
Proof.
  intros d q r L. cbn [outs tower]. destruct (five_eq q r L) as (-> & ->). destruct q as [|p]; [now rewrite andb_false_r|]. destruct r; cbn [Nat.eqb Nat.ltb Nat.leb andb]; [|reflexivity]. destruct d; [reflexivity|]. destruct (p <=? d); [|reflexivity]. f_equal; [|f_equal]; lia.
Qed.
Lemma ins_at : forall d q r, r < 5 -> ins (tower d) (5 * q + r) = if ((r =? 3) || (r =? 4)) && (q <? d) then [5 * q + 5] else [].
Proof. intros d q r L. cbn [ins tower]. destruct (five_eq q r L) as (-> & ->). reflexivity. Qed.
Lemma node_at : forall d n, In n (nodes (tower d)) <-> n <= 5 * d.
Proof. intros d n. cbn [nodes tower]. rewrite in_seq. lia. Qed.
Lemma outs_tower : forall d n m, In m (outs (tower d) n) <-> exists p, p < d /\ n = 5 * p + 5 /\ (m = 5 * p + 3 \/ m = 5 * p + 4).
Proof.
  intros d n m. destruct (five n) as (q & r & -> & L & _). rewrite outs_at by exact L. split.
  - destruct q as [|p]; [intros []|]. destruct ((r =? 0) && (S p <=? d)) eqn:E; [|intros []]. apply andb_true_iff in E as (A & B). apply Nat.eqb_eq in A. apply Nat.leb_le in B. intros [<-|[<-|[]]]; exists p; lia.
  - intros (p & A & B & C). assert (q = S p /\ r = 0) as (-> & ->) by lia. destruct (S p <=? d) eqn:E; [|apply Nat.leb_gt in E; lia]. simpl. lia.
Qed.
Lemma ins_tower : forall d n m, In n (ins (tower d) m) <-> exists p, p < d /\ n = 5 * p + 5 /\ (m = 5 * p + 3 \/ m = 5 * p + 4).
Proof.
  intros d n m. destruct (five m) as (q & r & -> & L & _). rewrite ins_at by exact L. split.
  - destruct (((r =? 3) || (r =? 4)) && (q <? d)) eqn:E; [|intros []]. apply andb_true_iff in E as (A & B). apply Nat.ltb_lt in B. intros [<-|[]]. exists q. apply orb_true_iff in A as [A|A]; apply Nat.eqb_eq in A; lia.
  - intros (p & A & B & C). assert (q = p /\ (r = 3 \/ r = 4)) as (-> & R) by lia. assert (E : (p <? d) = true) by (apply Nat.ltb_lt; lia). rewrite E. destruct R as [-> | ->]; simpl; lia.
Qed.
Lemma nodup_outs : forall d n, NoDup (outs (tower d) n).
Proof.
  intros d n. destruct (five n) as (q & r & -> & L & _). rewrite outs_at by exact L. destruct q as [|p]; [constructor|]. destruct (_ && _); [|constructor]. constructor; [intros [J|[]]; lia|constructor; [intros []|constructor]].
Qed.
Lemma nodup_ins : forall d n, NoDup (ins (tower d) n).
Proof. intros d n. destruct (five n) as (q & r & -> & L & _). rewrite ins_at by exact L. destruct (_ && _); [|constructor]. constructor; [intros []|constructor]. Qed.
Lemma tower_valid : forall d, valid (tower d).
Proof.
  intros d. constructor.
  - intros n m J K. apply node_at in J. apply node_at. destruct (five n) as (q & r & -> & L & _). rewrite kids_at in K by exact L. destruct ((r =? 0) && (q <? d)) eqn:E; [|destruct K]. apply andb_true_iff in E as (A & B). apply Nat.ltb_lt in B. destruct K as [<-|[<-|[<-|[<-|[]]]]]; lia.
  - intros n m. pose proof (proj1 (NoDup_count_occ Nat.eq_dec _) (nodup_outs d n) m). pose proof (proj1 (NoDup_count_occ Nat.eq_dec _) (nodup_ins d m) n).
    assert (E : In m (outs (tower d) n) <-> In n (ins (tower d) m)) by (rewrite outs_tower, ins_tower; reflexivity).
    rewrite (count_occ_In Nat.eq_dec), (count_occ_In Nat.eq_dec (ins (tower d) m)) in E. lia.
  - intros n m J. apply outs_tower in J as (p & A & B & C). rewrite !node_at. lia.
  - exists (fun n => if n mod 5 =? 0 then 0 else 1). intros n m J. apply outs_tower in J as (p & A & B & C).
    replace n with (5 * (p + 1) + 0) by lia. rewrite (proj2 (five_eq (p + 1) 0 ltac:(lia))). destruct C as [-> | ->]; [rewrite (proj2 (five_eq p 3 ltac:(lia)))|rewrite (proj2 (five_eq p 4 ltac:(lia)))]; simpl; lia.
  - intros m _ M. discriminate M.
Qed.

(** One step without modifiers. *)
Definition slow (g : graph) (k : nat) (visited q : list nat) : Prop := forall fuel, fuel < k -> clean g fuel [] visited q = NoFuel.
Lemma slow_step : forall g k visited n q, modifier g n = false -> slow g k (n :: visited) (q ++ pushed g [] visited n) -> slow g k visited (n :: q).
Proof.
  intros g k visited n q M S [|fuel] L; [reflexivity|]. cbn [clean]. rewrite M, andb_false_r. apply (S fuel). lia.
Qed.
Lemma slow_length : forall g q visited, (forall n, modifier g n = false) -> slow g (length q) visited q.
Proof.
  intros g q visited M fuel. revert q visited. induction fuel as [|fuel IH]; intros q visited L; destruct q as [|n q]; simpl in L; try lia; [reflexivity|].
  cbn [clean]. rewrite M, andb_false_r. apply IH. rewrite app_length. lia.
Qed.
Lemma slow_less : forall g k k' visited q, k' <= k -> slow g k visited q -> slow g k' visited q.
Proof. intros g k k' visited q L S fuel F. apply S. lia. Qed.
Lemma filter_keep : forall (f : nat -> bool) l, (forall x, In x l -> f x = true) -> filter f l = l.
Proof. intros f. induction l as [|x l IH]; intros H; [reflexivity|]. simpl. rewrite (H x (or_introl eq_refl)). f_equal. apply IH. intros y J. apply H. right; exact J. Qed.
Lemma filter_drop : forall (f : nat -> bool) l, (forall x, In x l -> f x = false) -> filter f l = [].
Proof. intros f. induction l as [|x l IH]; intros H; [reflexivity|]. simpl. rewrite (H x (or_introl eq_refl)). apply IH. intros y J. apply H. right; exact J. Qed.
Lemma pushed_none : forall g visited n, In n (nodes g) -> pushed g [] visited n = filter (fun m => negb (mem m visited)) (kids g n) ++ filter (fun m => negb (mem m visited)) (ins g n ++ outs g n).
Proof.
  intros g visited n J. unfold pushed, children, all_neighbours, look. assert (P : present g [] n = true) by (apply present_iff; split; [exact J|intros []]). rewrite P. rewrite !(filter_keep (fun m => negb (mem m []))) by reflexivity. reflexivity.
Qed.

Section Tower.
Variable d : nat.
Let T := tower d.
Definition body (i : nat) : list nat := [5 * i + 1; 5 * i + 2; 5 * i + 3; 5 * i + 4].
(** Visited nodes before function i is left, and before its calls are. *)
Definition upto (i bound : nat) (visited : list nat) : Prop :=
  (forall x, In x visited -> x <= bound) /\ (forall p, S p = i -> In (5 * p + 3) visited /\ In (5 * p + 4) visited).
Lemma unseen : forall i bound visited x, upto i bound visited -> bound < x -> negb (mem x visited) = true.
Proof. intros i bound visited x (U & _) L. apply negb_true_iff, mem_false. intros J. specialize (U x J). lia. Qed.
Lemma upto_cons : forall i bound visited x, upto i bound visited -> x <= bound -> upto i bound (x :: visited).
Proof. intros i bound visited x (U & W) L. split; [intros y [<-|J]; auto|]. intros p E. destruct (W p E). split; right; assumption. Qed.
Lemma upto_more : forall i bound bound' visited, upto i bound visited -> bound <= bound' -> upto i bound' visited.
Proof. intros i bound bound' visited (U & W) L. split; [|exact W]. intros x J. specialize (U x J). lia. Qed.
Lemma push_function : forall i visited, i < d -> upto i (5 * i) visited -> pushed T [] visited (5 * i) = body i.
Proof.
  intros i visited L U. rewrite pushed_none by (apply node_at; lia). replace (5 * i) with (5 * i + 0) at 1 2 3 by lia. unfold T. rewrite kids_at, ins_at, outs_at by lia. cbn [Nat.eqb andb orb app].
  assert (E : (i <? d) = true) by (apply Nat.ltb_lt; exact L). rewrite E. rewrite filter_keep, filter_drop.
  - now rewrite app_nil_r.
  - intros x J. destruct i as [|p]; [destruct J|]. destruct (_ <=? d); [|destruct J]. destruct (proj2 U p eq_refl) as (A & B). apply negb_false_iff, mem_iff. destruct J as [<-|[<-|[]]]; assumption.
  - intros x J. eapply unseen; [exact U|]. destruct J as [<-|[<-|[<-|[<-|[]]]]]; lia.
Qed.
Lemma push_call : forall i visited r, i < d -> r < 5 -> r <> 0 -> upto i (5 * i + 4) visited -> pushed T [] visited (5 * i + r) = if (r =? 3) || (r =? 4) then [5 * (i + 1)] else [].
Proof.
  intros i visited r L R Z U. rewrite pushed_none by (apply node_at; lia). unfold T. rewrite kids_at, ins_at, outs_at by exact R. apply Nat.eqb_neq in Z. rewrite Z. cbn [andb filter app].
  assert (E : (i <? d) = true) by (apply Nat.ltb_lt; exact L). rewrite E, andb_true_r. replace (match i with 0 => [] | S _ => [] end) with (@nil nat) by (destruct i; reflexivity). rewrite app_nil_r.
  destruct ((r =? 3) || (r =? 4)); [|reflexivity]. rewrite filter_keep; [f_equal; lia|]. intros x [<-|[]]. eapply unseen; [exact U|lia].
Qed.
Lemma slow_functions : forall i k j n visited, i < d -> upto i (5 * i) visited ->
  (forall visited', upto i (5 * i) visited' -> slow T n visited' (concat (repeat (body i) (j + k)))) ->
  slow T n visited (repeat (5 * i) k ++ concat (repeat (body i) j)).
Proof.
  intros i. induction k as [|k IH]; intros j n visited L U SL.
  - rewrite Nat.add_0_r in SL. apply SL, U.
  - cbn [repeat app]. apply slow_step; [reflexivity|]. rewrite push_function by assumption. rewrite <- app_assoc.
    replace (concat (repeat (body i) j) ++ body i) with (concat (repeat (body i) (S j))).
    + apply IH; [exact L|apply upto_cons; [exact U|lia]|]. intros v' U'. rewrite Nat.add_succ_l, <- Nat.add_succ_r. apply SL, U'.
    + clear. generalize (body i). intros l. induction j as [|j IH]; [simpl; now rewrite app_nil_r|]. cbn [repeat concat] in *. rewrite <- app_assoc, <- IH. reflexivity.
Qed.
Lemma slow_calls : forall i k j n visited, i < d -> upto i (5 * i + 4) visited ->
  (j <> 0 \/ k <> 0) -> (j <> 0 -> In (5 * i + 3) visited /\ In (5 * i + 4) visited) ->
  (forall visited', upto (i + 1) (5 * (i + 1)) visited' -> slow T n visited' (repeat (5 * (i + 1)) (j + 2 * k))) ->
  slow T n visited (concat (repeat (body i) k) ++ repeat (5 * (i + 1)) j).
Proof.
  intros i. induction k as [|k IH]; intros j n visited L U NZ SEEN SL.
  - rewrite Nat.add_0_r in SL. simpl. apply SL. split; [intros x J; apply (proj1 U) in J; lia|]. intros p E. assert (p = i) by lia. subst p. apply SEEN. destruct NZ as [NZ|NZ]; [exact NZ|contradiction].
  - cbn [repeat concat body app].
    assert (STEP : forall r v q, r < 5 -> r <> 0 -> upto i (5 * i + 4) v -> slow T n (5 * i + r :: v) (q ++ (if (r =? 3) || (r =? 4) then [5 * (i + 1)] else [])) -> slow T n v (5 * i + r :: q)).
    { intros r v q R Z UV X. apply slow_step; [reflexivity|]. rewrite push_call by assumption. exact X. }
    apply STEP; [lia|lia|exact U|]. cbn [Nat.eqb orb]. rewrite app_nil_r. cbn [app].
    apply STEP; [lia|lia|apply upto_cons; [exact U|lia]|]. cbn [Nat.eqb orb]. rewrite app_nil_r. cbn [app].
    apply STEP; [lia|lia|repeat (apply upto_cons; [|lia]); exact U|]. cbn [Nat.eqb orb app].
    apply STEP; [lia|lia|repeat (apply upto_cons; [|lia]); exact U|]. cbn [Nat.eqb orb]. rewrite <- !app_assoc. cbn [app].
    replace (repeat (5 * (i + 1)) j ++ [5 * (i + 1); 5 * (i + 1)]) with (repeat (5 * (i + 1)) (j + 2)) by (rewrite repeat_app; reflexivity).
    apply IH; [exact L|repeat (apply upto_cons; [|lia]); exact U|lia|intros _; split; simpl; auto|].
    intros v' U'. replace (j + 2 + 2 * k) with (j + 2 * S k) by lia. apply SL, U'.
Qed.
Lemma slow_level : forall c i k visited, i + c = d -> k <> 0 -> upto i (5 * i) visited -> slow T (k * 2 ^ c) visited (repeat (5 * i) k).
Proof.
  induction c as [|c IH]; intros i k visited E NZ U.
  - simpl. rewrite Nat.mul_1_r. rewrite <- (repeat_length (5 * i) k) at 1. apply slow_length. reflexivity.
  - rewrite <- (app_nil_r (repeat (5 * i) k)). change (@nil nat) with (concat (repeat (body i) 0)). apply slow_functions; [lia|exact U|]. intros v U2. cbn [Nat.add].
    rewrite <- (app_nil_r (concat (repeat (body i) k))). change (@nil nat) with (repeat (5 * (i + 1)) 0). apply slow_calls; [lia|eapply upto_more; [exact U2|lia]|lia|lia|].
    intros v3 U3. replace (k * 2 ^ S c) with ((0 + 2 * k) * 2 ^ c) by (simpl; lia). apply IH; [lia|lia|exact U3].
Qed.
Lemma slow_tower : forall fuel, fuel < 2 ^ d -> clean_up T fuel [0] = NoFuel.
Proof.
  intros fuel L. pose proof (slow_level d 0 1 []) as SL. rewrite Nat.mul_1_l in SL. apply (SL eq_refl); [lia| |exact L]. split; [intros x []|intros p E; discriminate E].
Qed.
End Tower.

(** ** It ends, in any graph *)
Section Ends.
Variable g : graph.
Hypothesis VG : valid g.
Lemma down_ends : forall fuel gone st, left_over g gone <= fuel -> remove_down g fuel gone st <> NoFuel \/ remove_down g (S fuel) gone st <> NoFuel.
Proof.
  induction fuel as [|fuel IH]; intros gone st L; (destruct st as [|n st]; [left; discriminate|]).
  - right. simpl. destruct (present g gone n) eqn:P; [|discriminate]. apply present_iff in P as (A & B). pose proof (left_less g gone n A B). lia.
  - cbn [remove_down]. destruct (present g gone n) eqn:P; [|left; discriminate]. apply present_iff in P as (A & B). pose proof (left_less g gone n A B). apply IH. lia.
Qed.
Lemma down_result : forall gone st, exists fuel r, remove_down g fuel gone st = r /\ r <> NoFuel.
Proof. intros gone st. destruct (down_ends (left_over g gone) gone st (le_n _)) as [N|N]; eauto. Qed.
Lemma down_grows : forall fuel gone st gone', remove_down g fuel gone st = Ok gone' -> forall x, In x gone -> In x gone'.
Proof.
  induction fuel as [|fuel IH]; intros gone st gone' E x J; destruct st as [|n st]; simpl in E; try discriminate; try (injection E as <-; exact J).
  destruct (present g gone n); [|discriminate]. apply (IH _ _ _ E). right; exact J.
Qed.
Record seen (gone visited q : list nat) : Prop := {
  s_near : forall x y, In x visited -> ~ In x gone -> near g x y -> In y visited \/ In y q \/ In y gone;
  s_nodes : forall x, In x q -> In x (nodes g);
}.
Lemma seen_step : forall gone gone' visited n q, seen gone visited (n :: q) -> (forall x, In x gone -> In x gone') -> seen gone' (n :: visited) (q ++ pushed g gone visited n).
Proof.
  intros gone gone' visited n q [NR ND] G. pose proof (ND n (or_introl eq_refl)) as JN. constructor.
  - intros x y J NG K. assert (NG0 : ~ In x gone) by (intros X; apply NG, G, X).
    destruct (Nat.eq_dec x n) as [->|XN].
    + destruct (in_dec Nat.eq_dec y gone) as [Y|Y]; [auto|]. destruct (in_dec Nat.eq_dec y visited) as [Z|Z]; [left; right; exact Z|].
      right; left. apply in_app_iff. right. apply pushed_iff. repeat split; auto. apply present_iff. auto.
    + destruct J as [<-|J]; [contradiction|]. destruct (NR x y J NG0 K) as [A|[[<-|A]|A]]; [left; right; exact A|left; left; reflexivity|right; left; apply in_app_iff; auto|auto].
  - intros x J. apply in_app_iff in J as [J|J]; [apply ND; right; exact J|]. apply pushed_iff in J as (_ & J & _). exact (near_nodes g VG n x JN J).
Qed.
Lemma ends : forall u k gone visited q, seen gone visited q -> left_over g visited <= u -> first_new visited q <= k -> exists fuel, clean g fuel gone visited q <> NoFuel.
Proof.
  induction u as [u IHu] using lt_wf_ind. induction k as [k IHk] using lt_wf_ind. intros gone visited q O U K.
  destruct q as [|n q]; [exists 0; discriminate|].
  assert (STEP : (exists f, clean g f gone visited (n :: q) <> NoFuel) \/ exists gone2, (forall x, In x gone -> In x gone2) /\
         forall f, clean g f gone2 (n :: visited) (q ++ pushed g gone visited n) <> NoFuel -> exists f', clean g f' gone visited (n :: q) <> NoFuel).
  { destruct (present g gone n && modifier g n) eqn:PM.
    - destruct (down_result gone [n]) as (f & r & E & NF). destruct r as [gone2| |]; [|left; exists (S f); cbn [clean]; rewrite PM, E; discriminate|congruence].
      right. exists gone2. split; [apply (down_grows _ _ _ _ E)|]. intros f2 C. exists (S (f + f2)). cbn [clean]. rewrite PM, (down_more g f (f + f2) gone [n] (Ok gone2) E NF) by lia.
      change (clean g (f + f2) gone2 (n :: visited) (q ++ pushed g gone visited n) <> NoFuel). rewrite (clean_more g f2 (f + f2) gone2 _ _ _ eq_refl C) by lia. exact C.
    - right. exists gone. split; [auto|]. intros f C. exists (S f). cbn [clean]. rewrite PM. exact C. }
  destruct STEP as [D|(gone2 & G & RUN)]; [exact D|]. pose proof (seen_step gone gone2 visited n q O G) as O2.
  cut (exists f, clean g f gone2 (n :: visited) (q ++ pushed g gone visited n) <> NoFuel); [intros (f & C); eauto|].
  pose proof (s_nodes _ _ _ O n (or_introl eq_refl)) as JN. cbn [first_new] in K. destruct (mem n visited) eqn:V.
  - apply mem_iff in V. assert (EQ : forall x, In x (n :: visited) <-> In x visited) by (intros x; simpl; split; [intros [<-|J]; auto|auto]).
    apply (IHk (first_new visited q)); [lia|exact O2|rewrite (left_ext g _ visited EQ); exact U|]. rewrite (first_new_ext _ visited _ EQ).
    destruct (existsb (fun x => negb (mem x visited)) q) eqn:EX.
    + apply existsb_exists in EX as (x & J & NX). apply negb_true_iff, mem_false in NX. rewrite first_new_app by eauto. lia.
    + assert (PE : pushed g gone visited n = []).
      { destruct (pushed g gone visited n) as [|y l] eqn:PY; [reflexivity|]. exfalso. assert (J : In y (pushed g gone visited n)) by (rewrite PY; left; reflexivity).
        apply pushed_iff in J as (P & NR & NG & NV). apply present_iff in P as (_ & P).
        destruct (s_near _ _ _ O n y V P NR) as [X|[[<-|X]|X]]; try contradiction.
        apply mem_false in NV. assert (existsb (fun x => negb (mem x visited)) q = true) by (apply existsb_exists; exists y; split; [exact X|now rewrite NV]). congruence. }
      rewrite PE, app_nil_r. lia.
  - apply mem_false in V. pose proof (left_less g visited n JN V). apply (IHu (left_over g (n :: visited)) ltac:(lia) (first_new (n :: visited) (q ++ pushed g gone visited n))); [exact O2|lia|lia].
Qed.
Lemma clean_ends : forall entries, (forall n, In n entries -> In n (nodes g)) -> exists fuel, clean_up g fuel entries <> NoFuel.
Proof.
  intros entries E. apply (ends (left_over g []) (first_new [] entries)); [|lia|lia]. constructor; [intros x y []|exact E].
Qed.
End Ends.
