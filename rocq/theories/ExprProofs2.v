(** Proofs about the inputs, the function calls and the value of expressions. *)
From Coq Require Import List Bool Arith Lia Permutation Sorted.
From Verif Require Import ScopeModel ScopeSpec ReachProofs ExprModel ExprSpec ExprProofs.
Import ListNotations.

(** *** Sorting *)
Section Sort.
Variable g : graph.
Variable allowed : list (nat * nat).
Variable excluded : list nat.
Notation key := (key g allowed excluded).
Notation entry := ((nat * nat) * (nat * nat))%type.

Definition after (a b : entry) : Prop := key_ltb (fst b) (fst a) = false.
Definition right_key (e : entry) : Prop := key (snd e) = Some (fst e).
Definition same_key (k : nat * nat) (q : nat * nat) : bool := match key q with Some k' => port_eqb k k' | None => false end.

Lemma ltb_iff : forall a b, key_ltb a b = true <-> fst a < fst b \/ (fst a = fst b /\ snd a < snd b).
Proof. intros a b. unfold key_ltb. rewrite orb_true_iff, andb_true_iff, !Nat.ltb_lt, Nat.eqb_eq. tauto. Qed.
Lemma ltb_not : forall a b, key_ltb a b = false <-> fst b < fst a \/ (fst a = fst b /\ snd b <= snd a).
Proof.
  intros a b. pose proof (ltb_iff a b) as H. destruct (key_ltb a b).
  - destruct H as [H _]. specialize (H eq_refl). split; [discriminate | lia].
  - assert (~ (fst a < fst b \/ fst a = fst b /\ snd a < snd b)) by (intros X; apply H in X; discriminate). split; [lia | reflexivity].
Qed.

Lemma insert_in : forall k q l e, In e (insert_sorted k q l) <-> e = (k, q) \/ In e l.
Proof.
  intros k q. induction l as [|[k' q'] l IH]; simpl; intros e; [intuition|].
  destruct (key_ltb k k'); simpl; [intuition|]. rewrite IH. intuition.
Qed.
Lemma insert_ok : forall k q l, StronglySorted after l -> StronglySorted after (insert_sorted k q l).
Proof.
  intros k q. induction l as [|[k' q'] l IH]; simpl; intros S; [constructor; constructor|].
  inversion S as [|x l' S2 F]; subst. destruct (key_ltb k k') eqn:L.
  - constructor; [exact S|]. constructor.
    + unfold after. simpl. apply ltb_iff in L. apply ltb_not. lia.
    + rewrite Forall_forall in *. intros e J. specialize (F e J). unfold after in *. simpl in *.
      apply ltb_iff in L. apply ltb_not in F. apply ltb_not. lia.
  - constructor; [apply IH, S2|]. rewrite Forall_forall in *. intros e J. apply insert_in in J as [->|J]; [|auto].
    unfold after. simpl. exact L.
Qed.
Lemma insert_filter : forall k q l, StronglySorted after l -> Forall right_key l -> key q = Some k -> forall k0,
  filter (same_key k0) (map snd (insert_sorted k q l)) = filter (same_key k0) (map snd l) ++ filter (same_key k0) [q].
Proof.
  intros k q. induction l as [|[k' q'] l IH]; simpl; intros S R K k0; [reflexivity|].
  inversion S as [|x l' S2 F]; subst. inversion R as [|x l' R1 R2]; subst. unfold right_key in R1. simpl in R1.
  destruct (key_ltb k k') eqn:L.
  - assert (SK : same_key k0 q = port_eqb k0 k) by (unfold same_key; rewrite K; reflexivity).
    simpl. rewrite SK. destruct (port_eqb k0 k) eqn:E.
    + (* nothing behind has this key *)
      apply port_eqb_iff in E. subst k0.
      assert (N : filter (same_key k) (map snd ((k', q') :: l)) = []).
      { clear IH. assert (G : forall e, In e ((k', q') :: l) -> same_key k (snd e) = false).
        { intros e J. unfold same_key. assert (RE : key (snd e) = Some (fst e)) by (destruct J as [<-|J]; [exact R1 | rewrite Forall_forall in R2; exact (R2 e J)]).
          rewrite RE. destruct (port_eqb k (fst e)) eqn:X; [|reflexivity]. apply port_eqb_iff in X. subst k.
          destruct J as [<-|J]; [simpl in L; apply ltb_iff in L; lia|].
          rewrite Forall_forall in F. specialize (F e J). unfold after in F. simpl in F. apply ltb_iff in L. apply ltb_not in F. lia. }
        revert G. generalize ((k', q') :: l). clear. induction l as [|e l IH]; simpl; intros G; [reflexivity|].
        rewrite (G e) by auto. apply IH. auto. }
      simpl in N. rewrite N. reflexivity.
    + rewrite app_nil_r. reflexivity.
  - simpl. rewrite (IH S2 R2 K k0). destruct (same_key k0 q'); reflexivity.
Qed.
Lemma insert_right : forall k q l, key q = Some k -> Forall right_key l -> Forall right_key (insert_sorted k q l).
Proof. intros k q l K R. rewrite Forall_forall in *. intros e J. apply insert_in in J as [->|J]; [exact K | auto]. Qed.
Lemma insert_perm : forall k q l, Permutation (map snd (insert_sorted k q l)) (q :: map snd l).
Proof.
  intros k q. induction l as [|[k' q'] l IH]; simpl; [constructor; constructor|].
  destruct (key_ltb k k'); simpl; [reflexivity|]. rewrite IH. apply perm_swap.
Qed.

Lemma sort_ok : forall l done r, StronglySorted after done -> Forall right_key done ->
  sort_keys g allowed excluded l done = Some r ->
  StronglySorted after r /\ Forall right_key r /\ Permutation (map snd r) (map snd done ++ l) /\
  forall k, filter (same_key k) (map snd r) = filter (same_key k) (map snd done) ++ filter (same_key k) l.
Proof.
  induction l as [|q l IH]; simpl; intros done r S R H.
  - injection H as <-. rewrite app_nil_r. repeat split; auto. intros k. now rewrite app_nil_r.
  - destruct (key q) as [k|] eqn:K; [|discriminate].
    apply IH in H; [|now apply insert_ok|now apply insert_right].
    destruct H as (A & B & P & F). repeat split; auto.
    + rewrite P, insert_perm. simpl. apply Permutation_middle.
    + intros k0. rewrite F, insert_filter by assumption. rewrite <- app_assoc. simpl.
      destruct (same_key k0 q); reflexivity.
Qed.
Lemma sort_total : forall l done, (forall q, In q l -> source g (fst q) (snd q) <> None) -> exists r, sort_keys g allowed excluded l done = Some r.
Proof.
  induction l as [|q l IH]; simpl; intros done H; [eauto|].
  destruct (key q) as [k|] eqn:K; [apply IH; auto|exfalso].
  unfold ExprModel.key in K. destruct (index port_eqb q allowed); [discriminate|].
  specialize (H q (or_introl eq_refl)). destruct (source g (fst q) (snd q)) as [[m p]|]; [|congruence].
  destruct (index Nat.eqb m excluded); discriminate.
Qed.
Lemma sort_inputs_ok : forall l r, sort_inputs g allowed excluded l = Some r ->
  Permutation (concat r) l /\ Forall (fun x => length x = 1) r /\
  (forall k, filter (same_key k) (concat r) = filter (same_key k) l) /\
  (forall i j q q' k k', i < j -> nth_error r i = Some [q] -> nth_error r j = Some [q'] -> key q = Some k -> key q' = Some k' -> key_ltb k' k = false).
Proof.
  intros l r H. unfold sort_inputs in H. destruct (sort_keys g allowed excluded l []) as [es|] eqn:E; [|discriminate].
  injection H as <-. apply sort_ok in E; [|constructor|constructor]. destruct E as (S & R & P & F).
  assert (CE : concat (map (fun e : entry => [snd e]) es) = map snd es) by (clear; induction es as [|e es IH]; simpl; [|rewrite IH]; reflexivity).
  rewrite CE. split; [exact P|]. split; [|split; [exact F|]].
  - clear. induction es; constructor; auto.
  - intros i j q q' k k' L A B K K'. revert i j L A B. clear P F CE. induction S as [|e es S IH FS]; intros i j L A B; [destruct i; discriminate|].
    inversion R as [|x y R1 R2]; subst. destruct j as [|j]; [lia|]. destruct i as [|i]; simpl in A, B.
    + injection A as A. apply nth_error_In, in_map_iff in B as (e' & B & J). injection B as B.
      rewrite Forall_forall in FS, R2. specialize (FS e' J). specialize (R2 e' J). unfold after, right_key in *. subst q q'.
      rewrite R1 in K. rewrite R2 in K'. injection K as <-. injection K' as <-. exact FS.
    + apply (IH R2 i j); auto; lia.
Qed.
End Sort.

(** *** Function calls *)
Section Calls.
Variable callee : nat -> option nat.

Definition grouped (gs : list (nat * list nat)) : Prop :=
  NoDup (map fst gs) /\ forall f l, In (f, l) gs -> l <> [] /\ forall n, In n l -> callee n = Some f.

Lemma add_in : forall f n gs, has f (map fst gs) = true -> NoDup (map fst gs) ->
  Permutation (concat (map snd (map (fun e : nat * list nat => if Nat.eqb (fst e) f then (fst e, snd e ++ [n]) else e) gs)))
              (n :: concat (map snd gs)).
Proof.
  intros f n. induction gs as [|[h l] gs IH]; simpl; intros H N; [discriminate|].
  inversion N as [|x y N1 N2]; subst. unfold has in H. simpl in H. rewrite (Nat.eqb_sym f h) in H.
  destruct (Nat.eqb h f) eqn:E; simpl.
  - apply Nat.eqb_eq in E. subst h.
    assert (Q : map (fun e : nat * list nat => if Nat.eqb (fst e) f then (fst e, snd e ++ [n]) else e) gs = gs).
    { clear IH N H. induction gs as [|[h k] gs IH]; simpl; [reflexivity|]. simpl in N1. inversion N2; subst.
      destruct (Nat.eqb h f) eqn:E; [apply Nat.eqb_eq in E; subst; tauto|]. rewrite IH; auto. }
    rewrite Q, <- app_assoc. simpl. symmetry. apply Permutation_middle.
  - simpl in H. rewrite (IH H N2). symmetry. apply Permutation_middle.
Qed.
Lemma add_keys : forall f n (gs : list (nat * list nat)),
  map fst (map (fun e : nat * list nat => if Nat.eqb (fst e) f then (fst e, snd e ++ [n]) else e) gs) = map fst gs.
Proof. intros f n gs. rewrite map_map. apply map_ext. intros [h l]. simpl. destruct (Nat.eqb h f); reflexivity. Qed.

Lemma group_ok : forall calls gs r, grouped gs -> group_calls callee calls gs = Some r ->
  grouped r /\ Permutation (concat (map snd r)) (concat (map snd gs) ++ calls).
Proof.
  induction calls as [|n calls IH]; simpl; intros gs r G H.
  - injection H as <-. rewrite app_nil_r. auto.
  - destruct (callee n) as [f|] eqn:E; [|discriminate]. destruct G as (N & G).
    destruct (has f (map fst gs)) eqn:HF; apply IH in H as (A & B).
    + split; [exact A|]. rewrite B, add_in by assumption. simpl. apply Permutation_middle.
    + split; [now rewrite add_keys|]. intros h l J. apply in_map_iff in J as ([h' l'] & X & J). simpl in X.
      destruct (Nat.eqb h' f) eqn:Q; inversion X; subst; [|apply G; exact J].
      apply Nat.eqb_eq in Q. subst h. destruct (G _ _ J) as (G1 & G2). split; [destruct l'; discriminate|].
      intros m K. apply in_app_iff in K as [K|[<-|[]]]; auto.
    + split; [exact A|]. rewrite B, map_app, concat_app. simpl. rewrite <- app_assoc. reflexivity.
    + rewrite <- not_true_iff_false, has_iff in HF. split; [rewrite map_app; apply nodup_snoc; assumption|].
      intros h l J. apply in_app_iff in J as [J|[J|[]]]; [auto|]. inversion J; subst. split; [discriminate|].
      intros m [<-|[]]. exact E.
Qed.
Lemma group_total : forall calls gs, (forall n, In n calls -> callee n <> None) -> exists r, group_calls callee calls gs = Some r.
Proof.
  induction calls as [|n calls IH]; simpl; intros gs H; [eauto|].
  destruct (callee n) as [f|] eqn:E; [|exfalso; apply (H n); auto]. apply IH. auto.
Qed.
End Calls.

(** *** Values *)
Section Value.
Variable g : graph.
Variable scope : list nat.
Variable allowed : list (nat * nat).
Variable excluded : list nat.
Hypothesis VG : valid g.
Variable V : Type.
Variable op : nat -> list V -> list V.
Variable val : nat * nat -> V.
Hypothesis R : run_of g scope excluded V op val.

Lemma get_app : forall {X} (a b : list ((nat * nat) * X)) q, get (a ++ b) q = match get a q with Some x => Some x | None => get b q end.
Proof. intros X. induction a as [|[w x] a IH]; simpl; intros b q; [reflexivity|]. destruct (_ && _); auto. Qed.
Lemma get_outputs : forall {X} n (vs : list X) k p, get (combine (map (pair n) (seq k (length vs))) vs) (n, k + p) = nth_error vs p.
Proof.
  intros X n. induction vs as [|v vs IH]; simpl; intros k p; [destruct p; reflexivity|].
  rewrite Nat.eqb_refl. simpl. destruct p as [|p].
  - rewrite Nat.add_0_r, Nat.eqb_refl. reflexivity.
  - assert (E : Nat.eqb k (k + S p) = false) by (apply Nat.eqb_neq; lia). rewrite E. cbn [nth_error]. rewrite <- (IH (S k) p). f_equal. f_equal. lia.
Qed.
Lemma get_others : forall {X} n (vs : list X) k m p, m <> n -> get (combine (map (pair n) (seq k (length vs))) vs) (m, p) = None.
Proof.
  intros X n. induction vs as [|v vs IH]; simpl; intros k m p H; [reflexivity|].
  assert (E : Nat.eqb n m = false) by (apply Nat.eqb_neq; auto). rewrite E. simpl. apply IH; auto.
Qed.
Lemma all_ok : forall (l : list (option V)), (forall x, In x l -> x <> None) -> exists vs, all_some V l = Some vs /\ l = map Some vs.
Proof.
  induction l as [|[v|] l IH]; simpl; intros H.
  - exists []. auto.
  - destruct IH as (vs & E & ->); [auto|]. exists (v :: vs). rewrite E. auto.
  - exfalso. apply (H None); auto.
Qed.

Lemma evaluate_ok : forall given l2 l1 env,
  (forall n i w, In n l2 -> get given (n, i) <> None -> source g n i = Some w -> get given (n, i) = Some (val w)) ->
  (forall n i m p, In n l2 -> get given (n, i) = None -> source g n i = Some (m, p) -> In m (l1 ++ l2)) ->
  (forall n, In n (l1 ++ l2) -> admissible g scope excluded n) ->
  in_order g (l1 ++ l2) -> NoDup (l1 ++ l2) ->
  (forall n i, In n l2 -> i < length (types g n Incoming) -> exists m p, source g n i = Some (m, p) /\ p < length (types g m Outgoing)) ->
  (forall n p, In n l1 -> p < length (types g n Outgoing) -> get env (n, p) = Some (val (n, p))) ->
  exists env2, evaluate g V op given l2 env = Some env2 /\
    forall n p, In n (l1 ++ l2) -> p < length (types g n Outgoing) -> get env2 (n, p) = Some (val (n, p)).
Proof.
  intros given. induction l2 as [|n l2 IH]; intros l1 env G1 G2 A O N W E.
  - exists env. split; [reflexivity|]. rewrite app_nil_r. exact E.
  - cbn [evaluate].
    assert (IV : forall i, i < length (types g n Incoming) -> exists w, source g n i = Some w /\ input_value g V given env n i = Some (val w)).
    { intros i L. destruct (W n i (or_introl eq_refl) L) as (m & p & S & LP). exists (m, p). split; [exact S|].
      unfold input_value. destruct (get given (n, i)) as [v|] eqn:Q.
      - rewrite <- Q. apply G1; simpl; auto. rewrite Q. discriminate.
      - rewrite S. apply E; [|exact LP].
        pose proof (G2 n i m p (or_introl eq_refl) Q S) as J.
        apply in_app_iff in J as [J|J]; [exact J|exfalso].
        assert (T : In (n, i) (targets g m p)) by (now apply (links _ VG)).
        (* [m] is not before [n] in the order *)
        apply in_split in J as (k1 & k2 & J).
        assert (X : In n k2).
        { apply (O (l1 ++ k1) m k2) with (p := p) (i := i); auto; [rewrite J, app_assoc; reflexivity|rewrite in_app_iff; simpl; auto]. }
        destruct k1 as [|x k1]; simpl in J; inversion J; subst.
        + apply NoDup_remove_2 in N. apply N. rewrite in_app_iff. auto.
        + apply NoDup_remove_2 in N. apply N. rewrite !in_app_iff. simpl. auto. }
    destruct (all_ok (map (input_value g V given env n) (seq 0 (length (types g n Incoming))))) as (vs & AS & MV).
    { intros x J. apply in_map_iff in J as (i & <- & J). apply in_seq in J. destruct (IV i) as (w & _ & ->); [lia|discriminate]. }
    rewrite AS.
    destruct (R n (A n ltac:(rewrite in_app_iff; simpl; auto)) vs) as (L & RV).
    { clear AS. revert IV MV. generalize (length (types g n Incoming)) as k.
      assert (G : forall k j, (forall i, j <= i < j + k -> exists w, source g n i = Some w /\ input_value g V given env n i = Some (val w)) ->
                 forall vs, map (input_value g V given env n) (seq j k) = map Some vs ->
                 Forall2 (fun i v => exists w, source g n i = Some w /\ val w = v) (seq j k) vs).
      { clear. induction k as [|k IH]; simpl; intros j IV [|v vs] M; try discriminate M; constructor.
        - inversion M as [[M1 M2]]. destruct (IV j) as (w & S & Q); [lia|]. exists w. split; [exact S|]. congruence.
        - inversion M as [[M1 M2]]. apply IH; [|exact M2]. intros i Li. apply IV. lia. }
      intros k IV MV. apply G; [intros i Li; apply IV; lia|exact MV]. }
    destruct (IH (l1 ++ [n]) (combine (map (pair n) (seq 0 (length (op n vs)))) (op n vs) ++ env)) as (env2 & E2 & H2);
      try (rewrite <- app_assoc; simpl; auto); auto.
    + intros x i w J. apply G1. right. exact J.
    + intros x i m p J. apply G2. right. exact J.
    + intros x i J. apply W. right. exact J.
    + intros x p J LP. rewrite get_app. apply in_app_iff in J as [J|[<-|[]]].
      * rewrite get_others; [apply E; assumption|]. intros ->.
        apply NoDup_remove_2 in N. apply N. rewrite in_app_iff. auto.
      * pose proof (get_outputs n (op n vs) 0 p) as Q. simpl in Q. rewrite Q.
        destruct (nth_error (op n vs) p) as [v|] eqn:X; [|apply nth_error_None in X; lia].
        rewrite (RV p v X). reflexivity.
    + exists env2. split; [exact E2|]. intros x p J LP. apply H2; [|exact LP]. rewrite <- app_assoc. exact J.
Qed.
End Value.

(** *** The first output *)
Section First.
Variable g : graph.
Variable scope : list nat.
Variable st : state.
Variable callee : nat -> option nat.
Variable choose : list nat -> list nat -> nat.
Variable allowed : list (nat * nat).
Variable excluded : list nat.
Notation visit_ports := (visit_ports g scope st allowed excluded).
Notation visit := (visit g scope st callee allowed excluded).
Notation traverse := (traverse g scope st callee choose allowed excluded).

Lemma inserts_head : forall qs l x, nth_error l 0 = Some x -> nth_error (fold_left (fun l q => insert_port q l) qs l) 0 = Some x.
Proof.
  induction qs as [|q qs IH]; simpl; intros l x H; [exact H|]. apply IH. unfold insert_port.
  destruct (has_port q l); [exact H|]. destruct l; [discriminate | exact H].
Qed.
Lemma ports_outputs : forall n ports a a2, visit_ports n ports a = Some a2 -> a_outputs a2 = a_outputs a.
Proof.
  intros n. induction ports as [|i ports IH]; simpl; intros a a2 H; [injection H as <-; reflexivity|].
  destruct (source g n i) as [[m p]|]; [|discriminate]. destruct (_ || _); [apply IH in H; exact H|].
  destruct (position st m); [|discriminate]. apply IH in H; exact H.
Qed.
Lemma visit_outputs : forall n a a2, visit n a = Some a2 ->
  a_outputs a2 = fold_left (fun l q => insert_port q l) (new_outputs g n (a_internal a)) (a_outputs a).
Proof.
  intros n a a2 H. unfold ExprModel.visit in H. destruct (visit_ports _ _ _) as [a1|] eqn:E; [|discriminate].
  injection H as <-. simpl. apply ports_outputs in E. exact E.
Qed.
Lemma traverse_head : forall fuel a a2 x, traverse fuel a = Some a2 -> nth_error (a_outputs a) 0 = Some x -> nth_error (a_outputs a2) 0 = Some x.
Proof.
  induction fuel as [|fuel IH]; intros a a2 x H N; [discriminate|]. cbn [ExprModel.traverse] in H.
  destruct (a_queue a) as [|q0 q] eqn:Q; [injection H as <-; exact N|].
  cbn [a_nodes] in H. destruct (has _ (a_nodes a)); [eapply IH in H; [exact H|exact N]|].
  destruct (visit _ _) as [a1|] eqn:E; [|discriminate]. eapply IH in H; [exact H|].
  apply visit_outputs in E. rewrite E. apply inserts_head. exact N.
Qed.
Lemma filter_first : forall {X} (f : X -> bool) l1 x l2, (forall y, In y l1 -> f y = false) -> f x = true -> filter f (l1 ++ x :: l2) = x :: filter f l2.
Proof. intros X f. induction l1 as [|y l1 IH]; simpl; intros x l2 H F; [now rewrite F|]. rewrite (H y) by auto. apply IH; auto. Qed.
Lemma first_output : forall out fuel a2 p, gives_largest st choose -> traverse fuel (start out) = Some a2 ->
  p < length (types g out Outgoing) -> targets g out p <> [] -> (forall p', p' < p -> targets g out p' = []) ->
  nth_error (a_outputs a2) 0 = Some (out, p).
Proof.
  intros out fuel a2 p C H L T F. destruct fuel as [|fuel]; [discriminate|]. cbn [ExprModel.traverse start a_queue a_nodes] in H.
  assert (E : choose [] [out] = out) by (destruct (C [] [out]) as ([<-|[]] & _); [discriminate|reflexivity]).
  rewrite E in H. cbn [has existsb] in H. destruct (visit _ _) as [a1|] eqn:VE; [|discriminate].
  apply (traverse_head _ _ _ (out, p) H). apply visit_outputs in VE. rewrite VE. cbn [a_internal a_outputs start].
  assert (Q : exists r, new_outputs g out [] = (out, p) :: r).
  { unfold new_outputs. replace (length (types g out Outgoing)) with (p + S (length (types g out Outgoing) - S p)) by lia.
    rewrite seq_app, map_app. simpl. rewrite filter_first; [eauto| |].
    - intros y J. apply in_map_iff in J as (p' & <- & J). apply in_seq in J. simpl. rewrite F by lia. reflexivity.
    - simpl. destruct (targets g out p); [congruence|reflexivity]. }
  destruct Q as (r & ->). simpl. apply inserts_head. reflexivity.
Qed.
End First.

Lemma index_some : forall {X} (eqb : X -> X -> bool), (forall a b, eqb a b = true <-> a = b) ->
  forall x l k, index eqb x l = Some k -> nth_error l k = Some x.
Proof.
  intros X eqb H x. induction l as [|y l IH]; simpl; intros k E; [discriminate|].
  destruct (eqb x y) eqn:Q; [injection E as <-; apply H in Q; subst; reflexivity|].
  destruct (index eqb x l) as [j|]; [|discriminate]. injection E as <-. apply IH. reflexivity.
Qed.
Lemma index_none : forall {X} (eqb : X -> X -> bool), (forall a b, eqb a b = true <-> a = b) ->
  forall x l, index eqb x l = None <-> ~ In x l.
Proof.
  intros X eqb H x. induction l as [|y l IH]; simpl; [tauto|].
  destruct (eqb x y) eqn:Q; [apply H in Q; subst; split; [discriminate|tauto]|].
  assert (y <> x) by (intros ->; rewrite (proj2 (H x x) eq_refl) in Q; discriminate).
  destruct (index eqb x l); simpl; split; try discriminate; try tauto.
  intros N. exfalso. destruct IH as [_ IH]. assert (Z : ~ In x l) by tauto. specialize (IH Z). discriminate.
Qed.
Lemma before_nth : forall {X} (l : list X) i j x y, i < j -> nth_error l i = Some x -> nth_error l j = Some y -> before x y l.
Proof.
  intros X l i j x y L A B. apply nth_error_split in A as (l1 & l2 & -> & <-).
  rewrite nth_error_app2 in B by lia. destruct (j - length l1) as [|k] eqn:E; [lia|]. simpl in B.
  apply nth_error_split in B as (l3 & l4 & -> & _). exists l1, l3, l4. reflexivity.
Qed.

(** *** The constructor *)
Section New.
Variable g : graph.
Variable scope : list nat.
Variable st : state.
Variable callee : nat -> option nat.
Variable choose : list nat -> list nat -> nat.
Variable allowed : list (nat * nat).
Variable excluded : list nat.
Hypothesis SE : setting g scope st choose.
Notation try_new := (try_new g scope st callee choose allowed excluded).
Notation inv := (inv g scope st callee allowed excluded).
Notation adm := (admissible g scope excluded).

Lemma traverse_fuel : forall f1 a a1, traverse g scope st callee choose allowed excluded f1 a = Some a1 ->
  forall f2, f1 <= f2 -> traverse g scope st callee choose allowed excluded f2 a = Some a1.
Proof.
  induction f1 as [|f1 IH]; intros a a1 H f2 L; [discriminate|]. destruct f2 as [|f2]; [lia|]. cbn [traverse] in *.
  destruct (a_queue a) as [|q0 q]; [exact H|]. destruct (has _ _); [apply IH; [exact H|lia]|].
  destruct (visit _ _ _ _ _ _ _ _) as [b|]; [|discriminate]. apply IH; [exact H|lia].
Qed.

Lemma new_ok : forall fuel output ins outs cs ns, try_new fuel output = MOk (Composite ins outs cs ns) ->
  adm (fst output) /\ exists a gs,
    traverse g scope st callee choose allowed excluded fuel (start (fst output)) = Some a /\
    inv (fst output) a /\ a_queue a = [] /\
    any_reachable_from g fuel st (a_outputs a) (a_inputs a) = Some false /\
    sort_inputs g allowed excluded (a_inputs a) = Some ins /\ group_calls callee (a_calls a) [] = Some gs /\
    cs = map snd gs /\ outs = a_outputs a /\ ns = a_nodes a.
Proof.
  intros fuel output ins outs cs ns H. destruct SE as [V I D C N]. unfold ExprModel.try_new in H.
  destruct (negb (output_copyable g output)); [discriminate|].
  destruct (admissible_node g scope excluded (fst output)) eqn:A; simpl in H; [|discriminate].
  apply adm_iff in A. split; [exact A|].
  destruct (position st (fst output)); [|discriminate].
  destruct (traverse _ _ _ _ _ _ _ _ _) as [a|] eqn:T; [|discriminate].
  destruct (any_reachable_from _ _ _ _ _) as [[|]|] eqn:R; try discriminate.
  destruct (sort_inputs _ _ _ _) as [is|] eqn:SI; [|discriminate].
  destruct (group_calls _ _ _) as [gs|] eqn:G; [|discriminate]. injection H as <- <- <- <-.
  exists a, gs.
  destruct (traverse_ok g scope st callee choose allowed excluded V I D C (fst output) (fuel + S (length scope)) (start (fst output))) as (a2 & T2 & H2 & Q2);
    [apply start_inv; auto|exact A|simpl; lia|].
  rewrite (traverse_fuel _ _ _ T (fuel + S (length scope))) in T2 by lia. injection T2 as <-. auto 10.
Qed.

Lemma new_total : forall output, output_copyable g output = true -> exists bound, forall fuel, bound <= fuel ->
  (~ adm (fst output) -> try_new fuel output = MOk (Wire output)) /\
  (adm (fst output) -> try_new fuel output = MNotConvex \/ exists ins outs cs ns, try_new fuel output = MOk (Composite ins outs cs ns)).
Proof.
  intros output OC. destruct SE as [V I D C N].
  destruct (adm_dec g scope excluded (fst output)) as [A|A].
  2:{ exists 0. intros fuel _. split; [intros _|intros; contradiction]. unfold ExprModel.try_new. rewrite OC. simpl.
      destruct (admissible_node g scope excluded (fst output)) eqn:X; [apply adm_iff in X; contradiction|reflexivity]. }
  destruct (traverse_ok g scope st callee choose allowed excluded V I D C (fst output) (S (length scope)) (start (fst output))) as (a & T & H & Q);
    [apply start_inv; auto|exact A|simpl; lia|].
  destruct (fuel_enough g st scope (proj1 I) (a_outputs a) (a_inputs a)) as (b & B).
  exists (b + S (length scope)). intros fuel L. split; [intros; contradiction|intros _].
  unfold ExprModel.try_new. rewrite OC. simpl. rewrite (proj2 (adm_iff g scope excluded (fst output)) A). simpl.
  destruct (positioned g scope st excluded I D (fst output) A) as (k & ->).
  rewrite (traverse_fuel _ _ _ T fuel) by lia. specialize (B fuel ltac:(lia)).
  destruct (any_reachable_from g fuel st (a_outputs a) (a_inputs a)) as [[|]|]; [left; reflexivity|right|congruence].
  destruct (sort_total g allowed excluded (a_inputs a) []) as (r & SI).
  { intros [m i] J. apply (i_inputs _ _ _ _ _ _ _ _ H) in J as (_ & n & p & E & _). simpl. rewrite E. discriminate. }
  destruct (group_total callee (a_calls a) []) as (gs & G).
  { intros n J. apply (i_calls _ _ _ _ _ _ _ _ H) in J. tauto. }
  unfold sort_inputs. rewrite SI, G. simpl. eauto.
Qed.
End New.
