(** Proofs about the traversal of [ExprModel]. *)
From Coq Require Import List Bool Arith Lia Permutation Relations.
From Verif Require Import ScopeModel ScopeSpec ReachProofs ExprModel ExprSpec.
Import ListNotations.

Lemma port_eqb_iff : forall a b, port_eqb a b = true <-> a = b.
Proof.
  intros [a1 a2] [b1 b2]. unfold port_eqb. simpl. rewrite andb_true_iff, !Nat.eqb_eq.
  split; [intros [-> ->]; reflexivity | intros E; injection E; auto].
Qed.
Definition pair_dec : forall a b : nat * nat, {a = b} + {a <> b}.
Proof. decide equality; apply Nat.eq_dec. Defined.
Lemma has_iff : forall n l, has n l = true <-> In n l.
Proof. intros n l. unfold has. apply existsb_In. Qed.
Lemma has_not : forall n l, has n l = false <-> ~ In n l.
Proof. intros n l. rewrite <- has_iff. destruct (has n l); split; congruence. Qed.
Lemma has_port_iff : forall q l, has_port q l = true <-> In q l.
Proof.
  intros q l. unfold has_port. rewrite existsb_exists. split.
  - intros (x & J & E). apply port_eqb_iff in E. now subst.
  - intros J. exists q. split; [exact J | now apply port_eqb_iff].
Qed.
Lemma has_port_not : forall q l, has_port q l = false <-> ~ In q l.
Proof. intros q l. rewrite <- has_port_iff. destruct (has_port q l); split; congruence. Qed.
Lemma in_insert : forall q r l, In q (insert_port r l) <-> In q l \/ q = r.
Proof.
  intros q r l. unfold insert_port. destruct (has_port r l) eqn:H.
  - apply has_port_iff in H. split; [auto | intros [J | ->]; auto].
  - rewrite in_app_iff. simpl. intuition.
Qed.
Lemma nodup_snoc : forall {X} (l : list X) x, NoDup l -> ~ In x l -> NoDup (l ++ [x]).
Proof.
  intros X l x N J.
  induction N as [|y l Y N IH]; simpl; [constructor; auto; constructor|].
  constructor; [rewrite in_app_iff; simpl in *; intuition congruence | apply IH; simpl in J; tauto].
Qed.
Lemma nodup_insert : forall q l, NoDup l -> NoDup (insert_port q l).
Proof.
  intros q l N. unfold insert_port. destruct (has_port q l) eqn:H; [exact N|].
  apply has_port_not in H. now apply nodup_snoc.
Qed.
Lemma in_push : forall n m l, In n (push_node m l) <-> In n l \/ n = m.
Proof.
  intros n m l. unfold push_node. destruct (has m l) eqn:H.
  - apply has_iff in H. split; [auto | intros [J | ->]; auto].
  - rewrite in_app_iff. simpl. intuition.
Qed.
Lemma in_inserts : forall qs l q, In q (fold_left (fun l q => insert_port q l) qs l) <-> In q l \/ In q qs.
Proof.
  induction qs as [|r qs IH]; simpl; intros l q; [tauto|]. rewrite IH, in_insert. intuition.
Qed.
Lemma nodup_inserts : forall qs l, NoDup l -> NoDup (fold_left (fun l q => insert_port q l) qs l).
Proof. induction qs as [|r qs IH]; simpl; intros l N; [exact N|]. apply IH. now apply nodup_insert. Qed.

Section Traverse.
Variable g : graph.
Variable scope : list nat.
Variable st : state.
Variable callee : nat -> option nat.
Variable choose : list nat -> list nat -> nat.
Variable allowed : list (nat * nat).
Variable excluded : list nat.
Hypothesis V : valid g.
Hypothesis I : increasing g scope st.
Hypothesis D : forall n, In n scope -> exists s, signature g n = Some s.
Hypothesis C : gives_largest st choose.
(** Targets are neighbours. *)
Hypothesis neigh_targets : forall a p b i, In (b, i) (targets g a p) -> In b (neighbours g a).

Notation admissible := (admissible g scope excluded).
Notation needed := (needed g scope allowed excluded).
Notation adm := (admissible_node g scope excluded).
Notation place := (place st).

Lemma types_iff : forall n p t, has_type g n p t <-> nth_error (types g n (fst p)) (snd p) = Some t.
Proof.
  intros n [d i] t. unfold has_type, types. simpl. split.
  - intros (a & b & S & N). rewrite S. destruct d; exact N.
  - intros N. destruct (signature g n) as [[a b]|] eqn:S; [|now destruct i]. exists a, b. split; [reflexivity|]. destruct d; exact N.
Qed.
Lemma adm_iff : forall n, adm n = true <-> admissible n.
Proof.
  intros n. unfold admissible_node, pure_copyable, ExprSpec.admissible, pure. rewrite !andb_true_iff, negb_true_iff, has_not, has_iff, !forallb_forall.
  split.
  - intros [[E [A B]] S]. split; [exact S|]. split; [|exact E]. intros [d i] t T. apply types_iff in T. simpl in T.
    apply nth_error_In in T. destruct d; auto.
  - intros (S & P & E). split; [split; [exact E|]|exact S]. split; intros t J; apply In_nth_error in J as [i J].
    + apply (P (Incoming, i)). now apply types_iff.
    + apply (P (Outgoing, i)). now apply types_iff.
Qed.
Lemma adm_dec : forall n, {admissible n} + {~ admissible n}.
Proof. intros n. destruct (adm n) eqn:E; [left|right]; [now apply adm_iff | rewrite <- adm_iff; congruence]. Qed.

(** Positions along edges. *)
Lemma place_lt : forall n m i p, In n scope -> In m scope -> source g m i = Some (n, p) -> place n < place m.
Proof.
  intros n m i p A B S. apply (links _ V) in S. destruct I as (_ & _ & Q).
  destruct (Q n p m i A B S) as (k & l & P1 & P2 & L). unfold ExprSpec.place. rewrite P1, P2. exact L.
Qed.
Lemma positioned : forall n, admissible n -> exists k, position st n = Some k.
Proof. intros n (S & _). destruct I as (_ & Q & _). apply Q; auto. Qed.

(** What is known during the traversal. *)
Record inv (out : nat) (a : args) : Prop := {
  i_nodup : NoDup (a_nodes a);
  i_needed : forall n, In n (a_nodes a) \/ In n (a_queue a) -> needed out n /\ admissible n;
  i_disjoint : forall n, In n (a_nodes a) -> ~ In n (a_queue a);
  i_below : forall n m, In n (a_nodes a) -> In m (a_queue a) -> place m <= place n;
  i_out : In out (a_nodes a) \/ In out (a_queue a);
  i_closed : forall m i n p, In m (a_nodes a) -> source g m i = Some (n, p) -> ~ In (m, i) allowed -> admissible n ->
    In n (a_nodes a) \/ In n (a_queue a);
  i_internal : forall m i, In (m, i) (a_internal a) <->
    In m (a_nodes a) /\ exists n p, source g m i = Some (n, p) /\ ~ In (m, i) allowed /\ admissible n;
  i_inputs : forall m i, In (m, i) (a_inputs a) <->
    In m (a_nodes a) /\ exists n p, source g m i = Some (n, p) /\ (In (m, i) allowed \/ ~ admissible n);
  i_inputs_nodup : NoDup (a_inputs a);
  i_outputs : forall n p, In (n, p) (a_outputs a) <-> In n (a_nodes a) /\ leaves g scope allowed excluded out (n, p);
  i_outputs_nodup : NoDup (a_outputs a);
  i_calls : forall n, In n (a_calls a) <-> In n (a_nodes a) /\ callee n <> None;
  i_calls_nodup : NoDup (a_calls a);
  i_sorted : forall l1 n l2, a_nodes a = l1 ++ n :: l2 -> forall m, In m l2 -> place n <= place m
}.

Lemma start_inv : forall out, admissible out -> inv out (start out).
Proof.
  intros out A. unfold start. constructor; simpl.
  - constructor.
  - intros n [[]|[<-|[]]]. split; [constructor | exact A].
  - intros n [].
  - intros n m [].
  - auto.
  - intros m i n p [].
  - intros m i. split; [contradiction | intros [[] _]].
  - intros m i. split; [contradiction | intros [[] _]].
  - constructor.
  - intros m i. split; [contradiction | intros [[] _]].
  - constructor.
  - intros n. split; [contradiction | intros [[] _]].
  - constructor.
  - intros l1 n l2 E. destruct l1; discriminate.
Qed.

(** The loop over the ports of [n]. *)
Lemma ports_ok : forall n ports a,
  (forall i, In i ports -> exists t, has_type g n (Incoming, i) t) ->
  exists a2, visit_ports g scope st allowed excluded n ports a = Some a2 /\
    a_outputs a2 = a_outputs a /\ a_calls a2 = a_calls a /\ a_nodes a2 = a_nodes a /\
    (forall m i, In (m, i) (a_internal a2) <-> In (m, i) (a_internal a) \/
       (m = n /\ In i ports /\ exists k p, source g m i = Some (k, p) /\ ~ In (m, i) allowed /\ admissible k)) /\
    (forall m i, In (m, i) (a_inputs a2) <-> In (m, i) (a_inputs a) \/
       (m = n /\ In i ports /\ exists k p, source g m i = Some (k, p) /\ (In (m, i) allowed \/ ~ admissible k))) /\
    (NoDup (a_inputs a) -> NoDup (a_inputs a2)) /\
    (forall k, In k (a_queue a2) <-> In k (a_queue a) \/
       exists i p, In i ports /\ source g n i = Some (k, p) /\ ~ In (n, i) allowed /\ admissible k).
Proof.
  intros n. induction ports as [|i ports IH]; intros a T; cbn [visit_ports].
  - exists a. split; [reflexivity|]. repeat (split; [reflexivity|]). simpl.
    split; [intros; split; [auto | intros [J|(_ & [] & _)]; exact J]|].
    split; [intros; split; [auto | intros [J|(_ & [] & _)]; exact J]|].
    split; [auto|]. intros k; split; [auto | intros [J|(i & p & [] & _)]; exact J].
  - destruct (T i (or_introl eq_refl)) as [t Ti]. destruct (connected _ V _ _ _ Ti) as (m & p & S & _). rewrite S.
    destruct (has_port (n, i) allowed || negb (adm m)) eqn:B.
    + destruct (IH {| a_inputs := insert_port (n, i) (a_inputs a); a_outputs := a_outputs a; a_calls := a_calls a;
                      a_nodes := a_nodes a; a_internal := a_internal a; a_queue := a_queue a |})
        as (a2 & E & E1 & E2 & E3 & E4 & E5 & E6 & E7); [intros j J; apply T; now right|].
      exists a2. split; [exact E|]. simpl in *. repeat (split; [assumption|]).
      assert (X : In (n, i) allowed \/ ~ admissible m).
      { apply orb_true_iff in B. destruct B as [B|B]; [left; now apply has_port_iff|right].
        apply negb_true_iff in B. rewrite <- adm_iff. congruence. }
      split; [|split; [|split; [|]]].
      * intros m0 j. rewrite E4. split.
        -- intros [J|(-> & J & R)]; [auto|]. right. eauto 6.
        -- intros [J|(-> & [<-|J] & k & q & S2 & N & A)]; [auto| |right; eauto 8].
           rewrite S in S2. injection S2 as <- <-. tauto.
      * intros m0 j. rewrite E5, in_insert. split.
        -- intros [[J|J]|(-> & J & R)]; [auto| |right; eauto 6].
           injection J as -> ->. right. split; [reflexivity|]. split; [auto|]. eauto.
        -- intros [J|(-> & [<-|J] & k & q & S2 & R)]; [auto|auto|right; eauto 8].
      * intros N. apply E6. now apply nodup_insert.
      * intros k. rewrite E7. split.
        -- intros [J|(j & q & J & R)]; [auto|]. right. eauto 8.
        -- intros [J|(j & q & [<-|J] & S2 & N & A)]; [auto| |right; eauto 8].
           rewrite S in S2. injection S2 as <- <-. tauto.
    + apply orb_false_iff in B as [B1 B2]. apply has_port_not in B1. apply negb_false_iff, adm_iff in B2.
      destruct (positioned m B2) as [k0 ->].
      destruct (IH {| a_inputs := a_inputs a; a_outputs := a_outputs a; a_calls := a_calls a; a_nodes := a_nodes a;
                      a_internal := insert_port (n, i) (a_internal a); a_queue := push_node m (a_queue a) |})
        as (a2 & E & E1 & E2 & E3 & E4 & E5 & E6 & E7); [intros j J; apply T; now right|].
      exists a2. split; [exact E|]. simpl in *. repeat (split; [assumption|]).
      split; [|split; [|split; [exact E6|]]].
      * intros m0 j. rewrite E4, in_insert. split.
        -- intros [[J|J]|(-> & J & R)]; [auto| |right; eauto 6].
           injection J as -> ->. right. split; [reflexivity|]. split; [auto|]. eauto 6.
        -- intros [J|(-> & [<-|J] & k & q & S2 & R)]; [auto|auto|right; eauto 8].
      * intros m0 j. rewrite E5. split.
        -- intros [J|(-> & J & R)]; [auto|]. right. eauto 6.
        -- intros [J|(-> & [<-|J] & k & q & S2 & N)]; [auto| |right; eauto 8].
           rewrite S in S2. injection S2 as <- <-. tauto.
      * intros k. rewrite E7, in_push. split.
        -- intros [[J| ->]|(j & q & J & R)]; [auto| |right; eauto 8]. right. exists i, p. auto.
        -- intros [J|(j & q & [<-|J] & S2 & N & A)]; [auto| |right; eauto 8].
           rewrite S in S2. injection S2 as <- <-. auto.
Qed.

(** Needed nodes that were not visited are below some node of the queue. *)
Lemma not_visited : forall out a, inv out a -> forall m, needed out m -> admissible out -> ~ In m (a_nodes a) ->
  exists q, In q (a_queue a) /\ place m <= place q.
Proof.
  intros out a H m N AO. induction N as [|m i n p N IH S NA A]; intros J.
  - destruct (i_out _ _ H) as [X|X]; [contradiction|]. exists out. auto.
  - assert (Am : admissible m) by (clear -N AO; destruct N; assumption).
    pose proof (place_lt n m i p (proj1 A) (proj1 Am) S) as L.
    destruct (in_dec Nat.eq_dec m (a_nodes a)) as [X|X].
    + destruct (i_closed _ _ H m i n p X S NA A) as [Y|Y]; [contradiction|]. exists n. auto.
    + destruct (IH X) as (q & Q & LQ). exists q. split; [exact Q | lia].
Qed.

Lemma needed_adm : forall out m, admissible out -> needed out m -> admissible m.
Proof. intros out m A N. destruct N; assumption. Qed.

(** Target of a visited or needed node is a node with that input. *)
Lemma visit_ok : forall out a n q, inv out a -> admissible out -> a_queue a = q -> q <> [] -> n = choose (a_nodes a) q ->
  exists a2, visit g scope st callee allowed excluded n
      {| a_inputs := a_inputs a; a_outputs := a_outputs a; a_calls := a_calls a; a_nodes := a_nodes a;
         a_internal := a_internal a; a_queue := filter (fun m => negb (Nat.eqb m n)) q |} = Some a2 /\
    inv out a2 /\ a_nodes a2 = n :: a_nodes a.
Proof.
  intros out a n q H AO EQ NE En. destruct (C (a_nodes a) q NE) as [Jn Max]. rewrite <- En in Jn, Max. clear En.
  rewrite <- EQ in *. clear EQ q NE.
  destruct (i_needed _ _ H n (or_intror Jn)) as [Nn An].
  assert (Vn : ~ In n (a_nodes a)) by (intros X; exact (i_disjoint _ _ H n X Jn)).
  assert (Qf : forall m, In m (filter (fun m => negb (Nat.eqb m n)) (a_queue a)) <-> In m (a_queue a) /\ m <> n).
  { intros m. rewrite filter_In, negb_true_iff, Nat.eqb_neq. tauto. }
  (* consumers that are needed were visited *)
  assert (Cons : forall p m i, In (m, i) (targets g n p) -> needed out m -> In m (a_nodes a)).
  { intros p m i T N. destruct (in_dec Nat.eq_dec m (a_nodes a)) as [X|X]; [exact X|exfalso].
    destruct (not_visited out a H m N AO X) as (q & Q & L). specialize (Max q Q).
    apply (links _ V) in T. pose proof (place_lt n m i p (proj1 An) (proj1 (needed_adm _ _ AO N)) T). lia. }
  unfold visit.
  set (a1 := {| a_inputs := _; a_outputs := fold_left _ _ _; a_calls := _; a_nodes := n :: _; a_internal := _; a_queue := _ |}).
  destruct (ports_ok n (seq 0 (length (types g n Incoming))) a1) as (a2 & E & E1 & E2 & E3 & E4 & E5 & E6 & E7).
  { intros i J. apply in_seq in J. destruct (nth_error (types g n Incoming) i) as [t|] eqn:T;
      [exists t; now apply types_iff | apply nth_error_None in T; lia]. }
  rewrite E. eexists. split; [reflexivity|]. subst a1. simpl in *.
  assert (Src : forall i k p, source g n i = Some (k, p) -> In i (seq 0 (length (types g n Incoming)))).
  { intros i k p S. destruct (targeted _ V _ _ _ _ S) as [t T]. apply types_iff in T. simpl in T. apply in_seq.
    split; [lia|]. apply nth_error_Some. congruence. }
  split; [|simpl; exact E3]. constructor; simpl; rewrite ?E3; simpl.
  - constructor; [exact Vn | apply (i_nodup _ _ H)].
  - intros m [[<-|J]|J].
    + auto.
    + apply (i_needed _ _ H); auto.
    + apply E7 in J. rewrite Qf in J. destruct J as [[J _]|(i & p & _ & S & NA & A)]; [apply (i_needed _ _ H); auto|].
      split; [|exact A]. eapply needed_source; eauto.
  - intros m J Q. apply E7 in Q. rewrite Qf in Q. destruct Q as [[Q X]|(i & p & _ & S & NA & A)].
    + destruct J as [<-|J]; [congruence|]. exact (i_disjoint _ _ H m J Q).
    + pose proof (place_lt m n i p (proj1 A) (proj1 An) S) as L. destruct J as [<-|J]; [lia|].
      pose proof (i_below _ _ H m n J Jn). lia.
  - intros m k J Q. apply E7 in Q. rewrite Qf in Q. destruct Q as [[Q X]|(i & p & _ & S & NA & A)].
    + destruct J as [<-|J]; [exact (Max k Q)|]. exact (i_below _ _ H m k J Q).
    + pose proof (place_lt k n i p (proj1 A) (proj1 An) S) as L. destruct J as [<-|J]; [lia|].
      pose proof (i_below _ _ H m n J Jn). lia.
  - destruct (i_out _ _ H) as [X|X]; [left; now right|]. destruct (Nat.eq_dec out n) as [->|N]; [left; now left|].
    right. apply E7. left. apply Qf. auto.
  - intros m i k p [<-|J] S NA A.
    + right. apply E7. right. exists i, p. eauto.
    + destruct (i_closed _ _ H m i k p J S NA A) as [X|X]; [left; now right|].
      destruct (Nat.eq_dec k n) as [->|N]; [left; now left|]. right. apply E7. left. apply Qf. auto.
  - intros m i. rewrite E4, (i_internal _ _ H). split.
    + intros [[J R]|(-> & _ & R)]; auto.
    + intros [[<-|J] R]; [right|auto]. split; [reflexivity|]. split; [|exact R]. destruct R as (k & p & S & _). eauto.
  - intros m i. rewrite E5, (i_inputs _ _ H). split.
    + intros [[J R]|(-> & _ & R)]; auto.
    + intros [[<-|J] R]; [right|auto]. split; [reflexivity|]. split; [|exact R]. destruct R as (k & p & S & _). eauto.
  - apply E6. apply (i_inputs_nodup _ _ H).
  - intros m p. rewrite E1, in_inserts, (i_outputs _ _ H). unfold new_outputs. rewrite filter_In, in_map_iff, existsb_exists. split.
    + intros [[J L]|[(i & Ei & Ji) ([k j] & T & F)]]; [auto|]. injection Ei as <- <-. simpl in T.
      split; [auto|]. split; [exact Nn|]. exists k, j. split; [exact T|]. intros Nk.
      apply negb_true_iff, has_port_not in F. destruct (in_dec pair_dec (k, j) allowed) as [X|X]; [exact X|exfalso].
      apply F. apply (i_internal _ _ H). split; [eapply Cons; eauto|]. exists n, i. split; [now apply (links _ V)|]. auto.
    + intros [[<-|J] L]; [|auto]. right. destruct L as [_ (k & j & T & F)]. simpl in T.
      assert (Ti : exists t, has_type g n (Outgoing, p) t).
      { apply (links _ V) in T. destruct (targeted _ V _ _ _ _ T) as [t Tt].
        destruct (connected _ V _ _ _ Tt) as (n' & p' & S' & T'). rewrite T in S'. injection S' as <- <-. eauto. }
      destruct Ti as [t Ti]. apply types_iff in Ti. simpl in Ti.
      split.
      * exists p. split; [reflexivity|]. apply in_seq. split; [lia|]. apply nth_error_Some. congruence.
      * exists (k, j). split; [exact T|]. apply negb_true_iff, has_port_not. intros X. apply (i_internal _ _ H) in X.
        destruct X as [Jk (n' & p' & _ & NA & _)]. apply NA, F. apply (i_needed _ _ H); auto.
  - rewrite E1. apply nodup_inserts, (i_outputs_nodup _ _ H).
  - intros m. rewrite E2. destruct (callee n) eqn:Cn.
    + rewrite in_app_iff, (i_calls _ _ H). simpl. split.
      * intros [[J X]|[<-|[]]]; [auto|]. split; [auto | congruence].
      * intros [[<-|J] X]; auto.
    + rewrite (i_calls _ _ H). split; [intros [J X]; auto | intros [[<-|J] X]; [congruence | auto]].
  - rewrite E2. destruct (callee n) eqn:Cn; [|apply (i_calls_nodup _ _ H)].
    apply nodup_snoc; [apply (i_calls_nodup _ _ H)|]. rewrite (i_calls _ _ H). tauto.
  - intros [|x l1] m l2 Eq k J; simpl in Eq; injection Eq as E8 E9.
    + subst m l2. exact (i_below _ _ H k n J Jn).
    + subst x. exact (i_sorted _ _ H l1 m l2 E9 k J).
Qed.

Lemma traverse_ok : forall out fuel a, inv out a -> admissible out ->
  length scope - length (a_nodes a) < fuel ->
  exists a2, traverse g scope st callee choose allowed excluded fuel a = Some a2 /\ inv out a2 /\ a_queue a2 = [].
Proof.
  intros out. induction fuel as [|fuel IH]; intros a H AO F; [lia|]. cbn [traverse].
  destruct (a_queue a) as [|q0 q] eqn:Q; [exists a; auto|].
  destruct (visit_ok out a (choose (a_nodes a) (q0 :: q)) (q0 :: q) H AO Q) as (a2 & E & H2 & N2); [discriminate | reflexivity|].
  assert (NV : ~ In (choose (a_nodes a) (q0 :: q)) (a_nodes a)).
  { pose proof (i_nodup _ _ H2) as N. rewrite N2 in N. now inversion N. }
  cbn [a_nodes]. apply has_not in NV. rewrite NV, E. apply IH; [exact H2 | exact AO|].
  rewrite N2. simpl.
  assert (L : length (a_nodes a2) <= length scope).
  { apply NoDup_incl_length; [apply (i_nodup _ _ H2)|]. intros n J. apply (i_needed _ _ H2 n (or_introl J)). }
  rewrite N2 in L. simpl in L. lia.
Qed.

(** At the end. *)
Lemma all_needed : forall out a, inv out a -> admissible out -> a_queue a = [] ->
  forall n, In n (a_nodes a) <-> needed out n.
Proof.
  intros out a H AO Q n. split; [intros J; apply (i_needed _ _ H); auto|].
  intros N. destruct (in_dec Nat.eq_dec n (a_nodes a)) as [X|X]; [exact X|exfalso].
  destruct (not_visited out a H n N AO X) as (q & J & _). rewrite Q in J. destruct J.
Qed.
Lemma ordered : forall out a, inv out a -> in_order g (a_nodes a).
Proof.
  intros out a H l1 n l2 E p m i T J.
  assert (An : admissible n) by (apply (i_needed _ _ H); left; rewrite E, in_app_iff; simpl; auto).
  assert (Am : admissible m) by (apply (i_needed _ _ H); auto).
  pose proof (place_lt n m i p (proj1 An) (proj1 Am)) as L. rewrite <- (links _ V) in L. specialize (L T).
  rewrite E in J. apply in_app_iff in J as [J|[<-|J]]; [|lia|exact J].
  apply in_split in J as (k1 & k2 & ->).
  rewrite <- app_assoc in E. simpl in E. pose proof (i_sorted _ _ H _ _ _ E n) as X.
  rewrite in_app_iff in X. simpl in X. specialize (X (or_intror (or_introl eq_refl))). lia.
Qed.

(** Expressions that were made are convex. *)
Lemma path_scope : forall a b, path g scope a b -> In a scope -> In b scope.
Proof. intros a b P. induction P as [|a b c (A & B & _) P IH]; auto. Qed.

Lemma convex_ok : forall out fuel ins outs, values_only g ->
  (forall q, In q ins <-> enters g scope allowed excluded out q) ->
  (forall q, In q outs <-> leaves g scope allowed excluded out q) ->
  admissible out ->
  any_reachable_from g fuel st outs ins = Some false -> convex g scope (needed out).
Proof.
  intros out fuel ins outs VO HI HO AO R a b c Sa Pab Pbc Sc.
  assert (IN : forall n, In n scope -> inside st n).
  { intros n J. unfold inside. destruct I as (_ & Q & _). destruct (Q n J (D n J)) as [k ->]. discriminate. }
  apply complete in R.
  2:{ intros x y k l J P1 P2. destruct (VO x y J) as (p & i & T). destruct I as (K & _ & Q).
      destruct (Q x p y i (K _ _ P1) (K _ _ P2) T) as (k' & l' & E1 & E2 & L). rewrite P1 in E1. rewrite P2 in E2.
      injection E1 as <-. injection E2 as <-. lia. }
  assert (ND : forall n, needed out n \/ ~ needed out n).
  { intros n. destruct (traverse_ok out (S (length scope)) (start out) (start_inv out AO) AO) as (a2 & _ & H2 & Q2); [simpl; lia|].
    rewrite <- (all_needed out a2 H2 AO Q2). destruct (in_dec Nat.eq_dec n (a_nodes a2)); auto. }
  destruct (ND b) as [X|Nb]; [exact X|exfalso].
  assert (Reach1 : reachable g st outs b).
  { (* from a to b the path leaves *)
    assert (G : forall x y, path g scope x y -> (needed out x \/ reachable g st outs x) -> (needed out y \/ reachable g st outs y)).
    { intros x y P. induction P as [x|x y z (A & B & p & i & T) P IH]; [auto|]. intros [N|N]; apply IH.
      - destruct (ND y) as [Y|Y]; [left; exact Y|right]. eapply First; [|exact T|apply IN; exact B].
        apply HO. split; [exact N|]. exists y, i. split; [exact T | intros; contradiction].
      - right. eapply Next; [exact N| |apply IN; exact B].
        apply (neigh_targets x p y i T). }
    destruct (G a b Pab (or_introl Sa)) as [X|X]; [contradiction|exact X]. }
  apply R.
  assert (G : forall x y, path g scope x y -> ~ needed out x -> needed out y -> reachable g st outs x ->
            exists e i, In (e, i) ins /\ reachable g st outs e).
  { intros x y P. induction P as [x|x y z (A & B & p & i & T) P IH]; [contradiction|]. intros NX NZ RX.
    assert (RY : reachable g st outs y) by (eapply Next; [exact RX|apply (neigh_targets x p y i T)|apply IN; exact B]).
    destruct (ND y) as [Y|Y]; [|exact (IH Y NZ RY)].
    exists y, i. split; [|exact RY]. apply HI. split; [exact Y|]. exists x, p. split; [now apply (links _ V)|].
    destruct (in_dec pair_dec (y, i) allowed) as [Z|Z]; [left; exact Z|right]. intros AX. apply NX.
    eapply needed_source; [exact Y|apply (links _ V); exact T|exact Z|exact AX]. }
  exact (G b c Pbc Nb Sc Reach1).
Qed.
End Traverse.
