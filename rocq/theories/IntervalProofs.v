(** Proofs about intervals. *)
From Coq Require Import List Bool Arith Lia Relations.
From Verif Require Import ScopeModel ScopeSpec ScopeProofs IntervalModel IntervalSpec.
Import ListNotations.

Section Interval.
Variables (g : graph) (nodes : list nat) (keeps : nat -> nat -> option nat) (st : state).
Hypothesis Hv : valid g.
Hypothesis Hs : sensible g keeps.
Hypothesis Ht : tracked g nodes keeps st.
Hypothesis Hi : increasing g nodes st.
Notation carries := (carries g nodes st).
Notation on_path := (on_path g nodes st).
Notation next := (next g nodes st).
Notation run := (run g nodes st).
Notation covers := (covers g nodes st).
Notation step := (step g nodes keeps).
Notation reaches := (reaches g nodes keeps).

Lemma linear_pos : forall n p, In n nodes -> linear g n p -> exists k, position st n = Some k.
Proof. intros n p Hn (t & T & _). apply (proj1 (proj2 Hi)); [exact Hn|]. eapply signed; eauto. Qed.
Lemma step_pos : forall a b, step a b -> exists k l, position st (fst a) = Some k /\ position st (fst b) = Some l /\ ((fst a <> fst b /\ k < l) \/ (fst a = fst b /\ fst (snd a) = Incoming /\ fst (snd b) = Outgoing)).
Proof.
  intros a b S. destruct S as [n p m i Hn Hm L T|n i j Hn K]; simpl.
  - destruct (proj2 (proj2 Hi) n p m i Hn Hm T) as (k & l & P1 & P2 & P3). exists k, l. split; [exact P1|]. split; [exact P2|]. left. split; [|exact P3]. intros E. rewrite E in P1. rewrite P1 in P2. injection P2 as <-. lia.
  - destruct Hs as [Hk _]. destruct (Hk _ _ _ K) as [L _]. destruct (linear_pos n _ Hn L) as [k P]. exists k, k. split; [exact P|]. split; [exact P|]. right. auto.
Qed.
Lemma reaches_pos : forall a b, reaches a b -> a = b \/ exists k l, position st (fst a) = Some k /\ position st (fst b) = Some l /\ ((fst a <> fst b /\ k < l) \/ (fst a = fst b /\ fst (snd a) = Incoming /\ fst (snd b) = Outgoing)).
Proof.
  intros a b R. induction R as [|a c b S R IH]; [left; reflexivity|]. right. destruct (step_pos _ _ S) as (k & l & P1 & P2 & P3). destruct IH as [<-|(k' & l' & Q1 & Q2 & Q3)]; [exists k, l; auto|].
  exists k, l'. split; [exact P1|]. split; [exact Q2|]. rewrite P2 in Q1. injection Q1 as <-. destruct P3 as [[X1 X2]|(X1 & X2 & X3)], Q3 as [[Y1 Y2]|(Y1 & Y2 & Y3)].
  - left. split; [|lia]. intros E. rewrite E in P1. rewrite Q2 in P1. injection P1 as ->. lia.
  - left. split; [congruence|]. rewrite Y1 in P2. rewrite Q2 in P2. injection P2 as ->. exact X2.
  - left. split; [congruence|]. rewrite X1 in P1. rewrite P2 in P1. injection P1 as ->. exact Y2.
  - congruence.
Qed.

Lemma same : forall r n p m q, carries r n p -> In m nodes -> linear g m q -> (units st m q = Some (Resource r) <-> reaches (n, p) (m, q) \/ reaches (m, q) (n, p)).
Proof. intros r n p m q (Hn & L & U) Hm Lm. apply (proj2 (proj2 (proj2 Ht)) n p m q r); auto. Qed.
Lemma side_unique : forall r n d i j, carries r n (d, i) -> carries r n (d, j) -> i = j.
Proof.
  intros r n d i j A B. assert (X := proj1 (same r n (d, i) n (d, j) A (proj1 B) (proj1 (proj2 B))) (proj2 (proj2 B))).
  destruct X as [X|X]; apply reaches_pos in X; (destruct X as [X|(k & l & _ & _ & [[X _]|(_ & X & Y)])]; [injection X; auto|simpl in X; congruence|simpl in X, Y; congruence]).
Qed.

Lemma carries_pos : forall r n p, carries r n p -> exists k, position st n = Some k.
Proof. intros r n p (Hn & L & _). eapply linear_pos; eauto. Qed.
Lemma path_pos : forall r n, on_path r n -> exists k, position st n = Some k.
Proof. intros r n [p C]. eapply carries_pos; eauto. Qed.
Lemma resource_carries : forall r n p t, In n nodes -> has_type g n p t -> units st n p = Some (Resource r) -> carries r n p.
Proof.
  intros r n p t Hn T U. split; [exact Hn|]. split; [|exact U]. exists t. split; [exact T|]. destruct (copyable g t) eqn:C; [|reflexivity]. destruct Ht as (_ & T1 & T2 & _). destruct p as [[] i].
  - destruct (T1 n i t Hn T C) as (w & _ & X). congruence.
  - rewrite (T2 n i t Hn T C) in U. discriminate.
Qed.
Lemma get_port_carries : forall n r d p, get_port g st n r d = Some p -> carries r n p /\ fst p = d.
Proof.
  intros n r d p H. unfold get_port in H. destruct (position st n) as [k|] eqn:P; [|discriminate]. assert (Hn := proj1 Hi n k P).
  assert (Q : forall ports, (forall i, In i ports -> i < length (types g n d)) -> first_port st n r d ports = Some p -> carries r n p /\ fst p = d).
  { induction ports as [|i ports IH]; intros B H'; [discriminate|]. cbn [first_port] in H'. assert (R : first_port st n r d ports = Some p -> carries r n p /\ fst p = d) by (apply IH; intros j J; apply B; right; exact J).
    destruct (units st n (d, i)) as [[x|w]|] eqn:U; auto. destruct (Nat.eqb x r) eqn:E; [|auto]. apply Nat.eqb_eq in E. subst x. injection H' as <-. split; [|reflexivity].
    assert (L := B i (or_introl eq_refl)). apply types_length in L. destruct L as [t T]. eapply resource_carries; eauto. }
  apply (Q (seq 0 (length (types g n d)))); [intros i I; apply in_seq in I; lia|exact H].
Qed.
Lemma carries_get_port : forall n r d i, carries r n (d, i) -> get_port g st n r d = Some (d, i).
Proof.
  intros n r d i C. destruct (carries_pos _ _ _ C) as [k P]. unfold get_port. rewrite P.
  assert (L : In i (seq 0 (length (types g n d)))). { apply in_seq. split; [lia|]. simpl. apply types_length. destruct C as (_ & (t & T & _) & _). exists t. exact T. }
  assert (Q : forall ports, (forall j, In j ports -> j < length (types g n d)) -> In i ports -> first_port st n r d ports = Some (d, i)).
  { induction ports as [|j ports IH]; intros B J; [destruct J|]. cbn [first_port]. destruct J as [->|J].
    - destruct C as (_ & _ & ->). rewrite Nat.eqb_refl. reflexivity.
    - assert (R : first_port st n r d ports = Some (d, i)) by (apply IH; [intros x X; apply B; right; exact X|exact J]). destruct (units st n (d, j)) as [[x|w]|] eqn:U; auto. destruct (Nat.eqb x r) eqn:E; [|exact R]. apply Nat.eqb_eq in E. subst x.
      assert (Lj := B j (or_introl eq_refl)). apply types_length in Lj. destruct Lj as [t T]. rewrite (side_unique r n d j i (resource_carries _ _ _ _ (proj1 C) T U) C). reflexivity. }
  apply Q; [intros j J; apply in_seq in J; lia|exact L].
Qed.
Lemma get_port_none : forall n r d, on_path r n -> get_port g st n r d = None -> forall i, ~ carries r n (d, i).
Proof. intros n r d _ H i C. rewrite (carries_get_port _ _ _ _ C) in H. discriminate. Qed.
Lemma carries_resource : forall r n p, carries r n p -> get_resource_id st n p = Some r.
Proof. intros r n p C. unfold get_resource_id. destruct (carries_pos _ _ _ C) as [k ->]. destruct C as (_ & _ & ->). reflexivity. Qed.

Lemma link_carries : forall r n p m i, In n nodes -> In m nodes -> In (m, i) (targets g n p) -> (carries r n (Outgoing, p) <-> carries r m (Incoming, i)).
Proof.
  intros r n p m i Hn Hm T. assert (L := linear_across g Hv n p m i T). split; intros C; assert (C' := C); destruct C as (_ & Lc & U).
  - assert (Lm : linear g m (Incoming, i)) by (apply L; exact Lc). split; [exact Hm|]. split; [exact Lm|]. apply (proj2 (same r n (Outgoing, p) m (Incoming, i) C' Hm Lm)). left. econstructor; [apply Across; eauto|constructor].
  - assert (Ln : linear g n (Outgoing, p)) by (apply L; exact Lc). split; [exact Hn|]. split; [exact Ln|]. apply (proj2 (same r m (Incoming, i) n (Outgoing, p) C' Hn Ln)). right. econstructor; [apply Across; eauto|constructor].
Qed.
Lemma targets_single : forall r n p m i, carries r n (Outgoing, p) -> In (m, i) (targets g n p) -> targets g n p = [(m, i)].
Proof. intros r n p m i (_ & L & _) T. assert (U := used_once g Hv _ _ L). destruct (targets g n p) as [|x [|y l]]; simpl in U; try lia. destruct T as [->|[]]. reflexivity. Qed.
Lemma next_facts : forall r a b, next r a b -> exists p i, carries r a (Outgoing, p) /\ carries r b (Incoming, i) /\ targets g a p = [(b, i)] /\ source g b i = Some (a, p) /\ exists k l, position st a = Some k /\ position st b = Some l /\ k < l.
Proof.
  intros r a b (p & i & C & T & Hb). exists p, i. split; [exact C|]. split; [apply (link_carries r a p b i (proj1 C) Hb T); exact C|]. split; [eapply targets_single; eauto|]. split; [apply (links g Hv); exact T|].
  apply (proj2 (proj2 Hi) a p b i (proj1 C) Hb T).
Qed.
Lemma next_fun : forall r a b c, next r a b -> next r a c -> b = c.
Proof.
  intros r a b c A B. destruct (next_facts _ _ _ A) as (p & i & A1 & _ & A3 & _). destruct (next_facts _ _ _ B) as (p' & i' & B1 & _ & B3 & _). assert (p = p') by exact (side_unique _ _ _ _ _ A1 B1). subst p'. rewrite A3 in B3. injection B3 as -> _. reflexivity.
Qed.
Lemma next_inj : forall r a b c, next r a c -> next r b c -> a = b.
Proof.
  intros r a b c A B. destruct (next_facts _ _ _ A) as (p & i & _ & A2 & _ & A4 & _). destruct (next_facts _ _ _ B) as (p' & i' & _ & B2 & _ & B4 & _). assert (i = i') by exact (side_unique _ _ _ _ _ A2 B2). subst i'. rewrite A4 in B4. injection B4 as -> _. reflexivity.
Qed.
Lemma next_path : forall r a b, next r a b -> on_path r a /\ on_path r b.
Proof. intros r a b N. destruct (next_facts _ _ _ N) as (p & i & A & B & _). split; [exists (Outgoing, p); exact A|exists (Incoming, i); exact B]. Qed.

(** ** Runs *)
Lemma run_path : forall r l n, run r l -> In n l -> on_path r n.
Proof. intros r. induction l as [|a l IH]; intros n R I; [destruct I|]. destruct R as [P R]. destruct I as [<-|I]; [exact P|]. destruct l as [|b l]; [destruct I|]. apply IH; [apply R|exact I]. Qed.
Lemma run_pos : forall r l n k, run r (n :: l) -> position st n = Some k -> forall m, In m l -> exists k', position st m = Some k' /\ k < k'.
Proof.
  intros r. induction l as [|b l IH]; intros n k R P m I; [destruct I|]. destruct R as (_ & N & R). destruct (next_facts _ _ _ N) as (_ & _ & _ & _ & _ & _ & k1 & k2 & P1 & P2 & P3). rewrite P in P1. injection P1 as <-.
  destruct I as [<-|I]; [exists k2; auto|]. destruct (IH b k2 R P2 m I) as (k' & P' & L). exists k'. split; [exact P'|lia].
Qed.
Lemma run_nodup : forall r l, run r l -> NoDup l.
Proof.
  intros r. induction l as [|a l IH]; intros R; [destruct R|]. destruct (path_pos r a (proj1 R)) as [k P]. constructor.
  - intros I. destruct (run_pos r l a k R P a I) as (k' & P' & L). rewrite P in P'. injection P' as <-. lia.
  - destruct l as [|b l]; [constructor|]. apply IH. apply R.
Qed.
Lemma run_join : forall r l1 a l2, run r (l1 ++ [a]) -> run r (a :: l2) -> run r (l1 ++ a :: l2).
Proof.
  intros r. induction l1 as [|x l1 IH]; intros a l2 A B; [exact B|]. simpl in A |- *. destruct A as [Px A]. split; [exact Px|]. destruct l1 as [|y l1]; simpl in *.
  - split; [apply A|exact B].
  - split; [apply A|]. apply IH; [apply A|exact B].
Qed.
Lemma run_split : forall r l1 a l2, run r (l1 ++ a :: l2) -> run r (l1 ++ [a]) /\ run r (a :: l2).
Proof.
  intros r. induction l1 as [|x l1 IH]; intros a l2 A; [split; [simpl; split; [apply A|exact I]|exact A]|]. simpl in A. destruct A as [Px A]. destruct l1 as [|y l1]; simpl in *.
  - destruct A as [N R]. split; [|exact R]. split; [exact Px|]. split; [exact N|]. split; [apply R|exact I].
  - destruct A as [N R]. destruct (IH a l2 R) as [R1 R2]. split; [|exact R2]. split; [exact Px|]. split; [exact N|exact R1].
Qed.
Lemma run_snoc : forall r l a n, run r (l ++ [a]) -> next r a n -> run r ((l ++ [a]) ++ [n]).
Proof. intros r l a n R N. rewrite <- app_assoc. simpl. apply run_join; [exact R|]. destruct (next_path _ _ _ N) as [A B]. simpl. auto. Qed.
(** Runs with the same ends are the same. *)
Lemma run_unique : forall r e l l' n, run r (n :: l) -> run r (n :: l') -> (exists x, n :: l = x ++ [e]) -> (exists x, n :: l' = x ++ [e]) -> l = l'.
Proof.
  intros r e. induction l as [|b l IH]; intros l' n R R' [x X] [y Y].
  - destruct x as [|z x]; [simpl in X; injection X as ->|destruct x; discriminate]. destruct l' as [|c l']; [reflexivity|]. exfalso. assert (N := run_nodup _ _ R'). inversion N as [|? ? N1 _]; subst. apply N1. destruct y as [|z y]; [discriminate|]. simpl in Y. injection Y as _ ->. apply in_or_app. right. left. reflexivity.
  - destruct l' as [|c l'].
    + exfalso. destruct y as [|z y]; [simpl in Y; injection Y as ->|destruct y; discriminate]. assert (N := run_nodup _ _ R). inversion N as [|? ? N1 _]; subst. apply N1. destruct x as [|z x]; [discriminate|]. simpl in X. injection X as _ ->. apply in_or_app. right. left. reflexivity.
    + destruct R as (_ & N & R). destruct R' as (_ & N' & R'). rewrite (next_fun _ _ _ _ N N') in *. f_equal. apply (IH l' c R R').
      * destruct x as [|z x]; [discriminate|]. simpl in X. injection X as _ X. exists x. exact X.
      * destruct y as [|z y]; [discriminate|]. simpl in Y. injection Y as _ Y. exists y. exact Y.
Qed.
Lemma reaches_run : forall r a b, reaches a b -> carries r (fst a) (snd a) -> exists l, run r (fst a :: l) /\ exists x, fst a :: l = x ++ [fst b].
Proof.
  intros r a b R. induction R as [a|a c b S R IH]; intros C.
  - exists []. split; [simpl; split; [exists (snd a); exact C|exact I]|]. exists []. reflexivity.
  - destruct S as [n p m i Hn Hm L T|n i j Hn K]; simpl in *.
    + destruct IH as (l & Rl & x & X); [apply (link_carries r n p m i Hn Hm T); exact C|]. exists (m :: l). split.
      * split; [exists (Outgoing, p); exact C|]. split; [exists p, i; auto|exact Rl].
      * exists (n :: x). simpl. rewrite X. reflexivity.
    + apply IH. assert (Lj : linear g n (Outgoing, j)) by apply (proj1 Hs _ _ _ K). split; [exact Hn|]. split; [exact Lj|]. apply (proj2 (same r n (Incoming, i) n (Outgoing, j) C Hn Lj)). left. econstructor; [apply Through; eauto|constructor].
Qed.
Lemma path_total : forall r a b, on_path r a -> on_path r b -> (exists l, run r (a :: l) /\ exists x, a :: l = x ++ [b]) \/ (exists l, run r (b :: l) /\ exists x, b :: l = x ++ [a]).
Proof.
  intros r a b [p Ca] [q Cb]. assert (X := proj1 (same r a p b q Ca (proj1 Cb) (proj1 (proj2 Cb))) (proj2 (proj2 Cb))). destruct X as [X|X]; [left|right]; [apply (reaches_run r (a, p) (b, q) X Ca)|apply (reaches_run r (b, q) (a, p) X Cb)].
Qed.
(** The position tells which way. *)
Lemma run_order : forall r a b ka kb, on_path r a -> on_path r b -> position st a = Some ka -> position st b = Some kb -> ka <= kb -> exists l, run r (a :: l) /\ exists x, a :: l = x ++ [b].
Proof.
  intros r a b ka kb Pa Pb Ka Kb L. destruct (path_total r a b Pa Pb) as [X|(l & R & x & X)]; [exact X|].
  destruct l as [|c l].
  - destruct x as [|y x]; [|destruct x; discriminate]. simpl in X. injection X as <-. exists []. split; [exact R|]. exists []. reflexivity.
  - exfalso. assert (J : In a (c :: l)) by (destruct x as [|y x]; [discriminate|]; simpl in X; injection X as _ ->; apply in_or_app; right; left; reflexivity). destruct (run_pos r _ b kb R Kb a J) as (k & K & L'). rewrite Ka in K. injection K as <-. lia.
Qed.
Lemma run_last_pos : forall r l e k m, run r (l ++ [e]) -> position st e = Some k -> In m (l ++ [e]) -> exists k', position st m = Some k' /\ k' <= k.
Proof.
  intros r l e k m R P J. apply in_app_or in J. destruct J as [J|[<-|[]]]; [|exists k; auto]. apply in_split in J. destruct J as (a & b & ->). rewrite <- app_assoc in R. simpl in R. apply run_split in R. destruct R as [_ R].
  destruct (path_pos r m (proj1 R)) as [k' K']. exists k'. split; [exact K'|]. destruct (run_pos r _ m k' R K' e) as (k2 & K2 & L); [apply in_or_app; right; left; reflexivity|]. rewrite P in K2. injection K2 as <-. lia.
Qed.

(** ** Intervals *)
Lemma covers_ends : forall i r l, covers i r l -> on_path r (start_node i) /\ on_path r (end_node i) /\ exists ks ke, position st (start_node i) = Some ks /\ position st (end_node i) = Some ke /\ ks <= ke /\
  (forall m, In m l -> exists k, position st m = Some k /\ ks <= k <= ke) /\ (forall m k, on_path r m -> position st m = Some k -> ks <= k <= ke -> In m l).
Proof.
  intros i r l (R & H & [x X] & _). destruct l as [|s0 l]; [destruct R|]. simpl in H. injection H as ->. set (s := start_node i) in *. set (e := end_node i) in *.
  assert (Ps : on_path r s) by apply R. assert (Pe : on_path r e) by (apply (run_path r (s :: l)); [exact R|rewrite X; apply in_or_app; right; left; reflexivity]).
  split; [exact Ps|]. split; [exact Pe|]. destruct (path_pos _ _ Ps) as [ks Ks]. destruct (path_pos _ _ Pe) as [ke Ke]. exists ks, ke. split; [exact Ks|]. split; [exact Ke|].
  assert (B : forall m, In m (s :: l) -> exists k, position st m = Some k /\ ks <= k <= ke).
  { intros m J. assert (J' := J). rewrite X in J'. destruct (run_last_pos r x e ke m ltac:(rewrite <- X; exact R) Ke J') as (k & K & L). exists k. split; [exact K|]. split; [|exact L]. destruct J as [<-|J]; [rewrite Ks in K; injection K as <-; lia|]. destruct (run_pos r l s ks R Ks m J) as (k' & K' & L'). rewrite K in K'. injection K' as <-. lia. }
  split; [destruct (B s (or_introl eq_refl)) as (k & K & L); lia|]. split; [exact B|].
  intros m k Pm K L. destruct (run_order r s m ks k Ps Pm Ks K ltac:(lia)) as (l1 & R1 & y1 & Y1). destruct (run_order r m e k ke Pm Pe K Ke ltac:(lia)) as (l2 & R2 & y2 & Y2).
  rewrite Y1 in R1. assert (J := run_join r y1 m l2 R1 R2). assert (E : exists l', y1 ++ m :: l2 = s :: l') by (destruct y1 as [|a y1]; simpl in *; injection Y1 as -> ?; eauto). destruct E as [l' E]. rewrite E in J.
  rewrite (run_unique r e l l' s R J); [rewrite <- E; apply in_or_app; right; left; reflexivity|exists x; exact X|]. exists (y1 ++ y2). rewrite <- E, Y2, app_assoc. reflexivity.
Qed.
Lemma covers_unique : forall i r l l', covers i r l -> covers i r l' -> l = l'.
Proof.
  intros i r l l' (R & H & X & _) (R' & H' & X' & _). destruct l as [|a l]; [destruct R|]. destruct l' as [|b l']; [destruct R'|]. simpl in H, H'. injection H as ->. injection H' as ->. f_equal. eapply run_unique; eauto.
Qed.
Lemma new_ok : forall r a b i, try_new g st r a b = Ok i -> exists l, covers i r l /\ start_node i = a /\ end_node i = b.
Proof.
  intros r a b i H. unfold try_new in H. destruct (position st a) as [ka|] eqn:Ka; [|discriminate]. destruct (position st b) as [kb|] eqn:Kb; [|discriminate]. destruct (Nat.ltb kb ka) eqn:L; [discriminate|]. apply Nat.ltb_ge in L.
  destruct (Nat.eqb a b) eqn:E.
  - apply Nat.eqb_eq in E. subst b. destruct (new_singleton g st r a) as [j|] eqn:N; [|discriminate]. injection H as <-. unfold new_singleton in N.
    assert (Q : forall p, carries r a p -> covers (Singleton (a, p)) r [a]) by (intros p C; split; [simpl; split; [exists p; exact C|exact I]|]; split; [reflexivity|]; split; [exists []; reflexivity|]; auto).
    destruct (get_port g st a r Incoming) as [p|] eqn:P.
    + injection N as <-. exists [a]. split; [apply Q; apply (get_port_carries _ _ _ _ P)|]. auto.
    + destruct (get_port g st a r Outgoing) as [p|] eqn:P'; [|discriminate]. injection N as <-. exists [a]. split; [apply Q; apply (get_port_carries _ _ _ _ P')|]. auto.
  - apply Nat.eqb_neq in E. destruct (get_port g st a r Outgoing) as [p|] eqn:Pa; [|discriminate]. destruct (get_port g st b r Incoming) as [q|] eqn:Pb; [|discriminate].
    destruct (get_port_carries _ _ _ _ Pa) as [Ca Da]. destruct (get_port_carries _ _ _ _ Pb) as [Cb Db]. destruct p as [dp p]. destruct q as [dq q]. simpl in Da, Db. subst dp dq. unfold new_span in H. simpl in H. assert (E' := proj2 (Nat.eqb_neq _ _) E). rewrite E' in H. injection H as <-.
    destruct (run_order r a b ka kb (ex_intro _ _ Ca) (ex_intro _ _ Cb) Ka Kb L) as (l & R & x & X). exists (a :: l). split; [|auto]. split; [exact R|]. split; [reflexivity|]. split; [exists x; exact X|]. split; [|auto].
    destruct l as [|c l]; [|simpl; lia]. destruct x as [|y x]; [|destruct x; discriminate]. simpl in X. congruence.
Qed.
Lemma new_complete : forall r a b l, run r l -> hd_error l = Some a -> (exists x, l = x ++ [b]) -> exists i, try_new g st r a b = Ok i /\ covers i r l.
Proof.
  intros r a b l R H [x X]. destruct l as [|a' l]; [destruct R|]. simpl in H. injection H as ->. destruct (path_pos r a (proj1 R)) as [ka Ka].
  assert (Pb : on_path r b) by (apply (run_path r (a :: l)); [exact R|rewrite X; apply in_or_app; right; left; reflexivity]). destruct (path_pos r b Pb) as [kb Kb]. unfold try_new. rewrite Ka, Kb.
  destruct l as [|c l].
  - destruct x as [|y x]; [|destruct x; discriminate]. simpl in X. injection X as <-. rewrite Ka in Kb. injection Kb as <-. rewrite Nat.ltb_irrefl, Nat.eqb_refl. unfold new_singleton. destruct (proj1 R) as [p C].
    assert (Q : forall p, carries r a p -> covers (Singleton (a, p)) r [a]) by (intros p' C'; split; [exact R|]; split; [reflexivity|]; split; [exists []; reflexivity|]; auto).
    destruct (get_port g st a r Incoming) as [p1|] eqn:P1; [eexists; split; [reflexivity|]; apply Q; apply (get_port_carries _ _ _ _ P1)|].
    destruct (get_port g st a r Outgoing) as [p2|] eqn:P2; [eexists; split; [reflexivity|]; apply Q; apply (get_port_carries _ _ _ _ P2)|].
    exfalso. destruct p as [[] p]; [rewrite (carries_get_port _ _ _ _ C) in P1|rewrite (carries_get_port _ _ _ _ C) in P2]; discriminate.
  - assert (J : In b (c :: l)) by (destruct x as [|y x]; [discriminate|]; simpl in X; injection X as _ ->; apply in_or_app; right; left; reflexivity).
    destruct (run_pos r _ a ka R Ka b J) as (k' & K' & L). rewrite Kb in K'. injection K' as <-.
    assert (Nat.ltb kb ka = false) as -> by (apply Nat.ltb_ge; lia). assert (D : a <> b) by (intros ->; rewrite Ka in Kb; injection Kb as <-; lia). assert (D' := proj2 (Nat.eqb_neq _ _) D). rewrite D'.
    destruct R as (Pa & N & R). destruct (next_facts _ _ _ N) as (p & i & Ca & _). rewrite (carries_get_port _ _ _ _ Ca).
    assert (Cb : exists q, carries r b (Incoming, q)).
    { assert (Xb : exists y z, a :: c :: l = y ++ [z; b]). { clear - X. destruct x as [|y x]; [discriminate|]. simpl in X. assert (Z := app_removelast_last 0 (l := y :: x) ltac:(discriminate)). exists (removelast (y :: x)), (last (y :: x) 0). simpl in X. rewrite X. change (y :: x ++ [b]) with ((y :: x) ++ [b]). rewrite Z at 1. rewrite <- app_assoc. reflexivity. }
      destruct Xb as (y & z & Y). assert (R' : run r (y ++ z :: [b])) by (rewrite <- Y; simpl; auto). apply run_split in R'. destruct R' as [_ (_ & Nz & _)]. destruct (next_facts _ _ _ Nz) as (p' & q & _ & Cq & _). exists q. exact Cq. }
    destruct Cb as [q Cb]. rewrite (carries_get_port _ _ _ _ Cb). unfold new_span. simpl. rewrite D'. eexists. split; [reflexivity|]. split; [simpl; auto|]. split; [reflexivity|]. split; [exists x; exact X|]. split; [simpl; lia|auto].
Qed.
Lemma covers_port : forall i r l, covers i r l -> carries r (fst (any_port i)) (snd (any_port i)).
Proof. intros [[n p]|[a p] [b q]] r l (_ & _ & _ & H); simpl; apply H. Qed.
Lemma covers_resource : forall i r l, covers i r l -> resource_id st i = Some r.
Proof. intros i r l C. unfold resource_id. apply carries_resource. apply (covers_port i r l C). Qed.
Lemma boundary_ok : forall i r l d, covers i r l ->
  let n := match d with Incoming => start_node i | Outgoing => end_node i end in
  boundary_port g st i d = Some (match get_port g st n r d with Some p => Some (n, p) | None => None end).
Proof.
  intros [[n p]|[a p] [b q]] r l d (_ & _ & _ & H); unfold boundary_port; cbn [start_node end_node].
  - rewrite (carries_resource r n p); [|apply H]. destruct d; reflexivity.
  - destruct d; [rewrite (carries_resource r a (Outgoing, p)); [|apply H]|rewrite (carries_resource r b (Incoming, q)); [|apply H]]; reflexivity.
Qed.
Lemma extend_before : forall i r l n, covers i r l -> next r n (start_node i) -> exists i', add_node_unchecked g st i n = Ok (i', Some Incoming) /\ covers i' r (n :: l) /\ try_extend g st i n = Ok (i', Some Incoming).
Proof.
  intros i r l n C N. destruct (covers_ends i r l C) as (_ & _ & ks & ke & Ks & Ke & Le & _). destruct (next_facts _ _ _ N) as (p & j & C1 & C2 & T & Sc & k1 & k2 & K1 & K2 & L). rewrite Ks in K2. injection K2 as <-.
  assert (Pos : position_in_interval st i k1 = Some Lt) by (unfold position_in_interval; rewrite Ks, Ke, (proj2 (Nat.ltb_lt k1 ks) L); reflexivity).
  assert (A : exists i', add_node_unchecked g st i n = Ok (i', Some Incoming) /\ covers i' r (n :: l)).
  { unfold add_node_unchecked. rewrite K1, (covers_resource i r l C), Pos. cbn [reverse]. rewrite (carries_get_port _ _ _ _ C1).
    assert (R : run r (n :: l)). { destruct C as (R & H & _). destruct l as [|a l]; [destruct R|]. simpl in H. injection H as ->. split; [apply (next_path _ _ _ N)|]. split; [exact N|exact R]. }
    assert (Q : forall e q, e = end_node i -> carries r e (Incoming, q) -> covers (Span (n, p) (e, q)) r (n :: l)).
    { intros e q -> Cq. split; [exact R|]. split; [reflexivity|]. destruct C as (Rl & _ & [x X] & _). split; [exists (n :: x); simpl; rewrite X; reflexivity|]. split; [|auto]. destruct l; [destruct Rl|simpl; lia]. }
    assert (D : n <> end_node i) by (intros E; rewrite <- E in Ke; rewrite K1 in Ke; injection Ke as <-; lia).
    assert (C' := C). destruct i as [[m q]|[a x] [b q]]; cbn [start_node end_node] in *.
    - destruct C as (_ & _ & _ & _ & Cq). assert (ensure_direction g st (m, q) Incoming = Some (m, (Incoming, j))) as ->.
      { unfold ensure_direction. cbn [fst snd]. destruct q as [[] q]; cbn [fst]; [destruct (direction_dec Incoming Incoming) as [_|X]; [|congruence]; rewrite (side_unique _ _ _ _ _ Cq C2); reflexivity|]. destruct (direction_dec Incoming Outgoing); [discriminate|]. rewrite (carries_resource _ _ _ Cq), (carries_get_port _ _ _ _ C2). reflexivity. }
      unfold new_span. cbv beta iota. cbn [fst snd]. rewrite (proj2 (Nat.eqb_neq _ _) D). eexists. split; [reflexivity|]. apply Q; auto.
    - unfold new_span. cbv beta iota. cbn [fst snd]. rewrite (proj2 (Nat.eqb_neq _ _) D). eexists. split; [reflexivity|]. apply Q; [reflexivity|]. apply C. }
  destruct A as (i' & A & Cv). exists i'. split; [exact A|]. split; [exact Cv|]. unfold try_extend. rewrite K1, Pos, (boundary_ok i r l Incoming C). cbn zeta. rewrite (carries_get_port _ _ _ _ C2). cbn [snd]. rewrite Sc, Nat.eqb_refl. exact A.
Qed.
Lemma extend_after : forall i r l n, covers i r l -> next r (end_node i) n -> exists i', add_node_unchecked g st i n = Ok (i', Some Outgoing) /\ covers i' r (l ++ [n]) /\ try_extend g st i n = Ok (i', Some Outgoing).
Proof.
  intros i r l n C N. destruct (covers_ends i r l C) as (_ & _ & ks & ke & Ks & Ke & Le & _). destruct (next_facts _ _ _ N) as (p & j & C1 & C2 & T & Sc & k1 & k2 & K1 & K2 & L). rewrite Ke in K1. injection K1 as <-.
  assert (Pos : position_in_interval st i k2 = Some Gt) by (unfold position_in_interval; rewrite Ks, Ke, (proj2 (Nat.ltb_ge k2 ks) ltac:(lia)), (proj2 (Nat.ltb_lt ke k2) L); reflexivity).
  assert (A : exists i', add_node_unchecked g st i n = Ok (i', Some Outgoing) /\ covers i' r (l ++ [n])).
  { unfold add_node_unchecked. rewrite K2, (covers_resource i r l C), Pos. cbn [reverse]. rewrite (carries_get_port _ _ _ _ C2).
    assert (R : run r (l ++ [n])). { destruct C as (R & _ & [x X] & _). rewrite X in *. apply run_snoc; [exact R|exact N]. }
    assert (Q : forall e q, e = start_node i -> carries r e (Outgoing, q) -> covers (Span (e, q) (n, j)) r (l ++ [n])).
    { intros e q -> Cq. split; [exact R|]. destruct C as (Rl & H & _). destruct l as [|a l]; [destruct Rl|]. split; [simpl in H |- *; exact H|]. split; [exists (a :: l); reflexivity|]. split; [|auto]. rewrite app_length. simpl. lia. }
    assert (D : start_node i <> n) by (intros E; rewrite <- E in K2; rewrite Ks in K2; injection K2 as <-; lia).
    destruct i as [[m q]|[a x] [b q]]; cbn [start_node end_node] in *.
    - destruct C as (_ & _ & _ & _ & Cq). assert (ensure_direction g st (m, q) Outgoing = Some (m, (Outgoing, p))) as ->.
      { unfold ensure_direction. cbn [fst snd]. destruct q as [[] q]; cbn [fst]; [|destruct (direction_dec Outgoing Outgoing) as [_|X]; [|congruence]; rewrite (side_unique _ _ _ _ _ Cq C1); reflexivity]. destruct (direction_dec Outgoing Incoming); [discriminate|]. rewrite (carries_resource _ _ _ Cq), (carries_get_port _ _ _ _ C1). reflexivity. }
      unfold new_span. cbv beta iota. cbn [fst snd]. rewrite (proj2 (Nat.eqb_neq _ _) D). eexists. split; [reflexivity|]. apply Q; auto.
    - unfold new_span. cbv beta iota. cbn [fst snd]. rewrite (proj2 (Nat.eqb_neq _ _) D). eexists. split; [reflexivity|]. apply Q; [reflexivity|]. apply C. }
  destruct A as (i' & A & Cv). exists i'. split; [exact A|]. split; [exact Cv|]. unfold try_extend. rewrite K2, Pos, (boundary_ok i r l Outgoing C). cbn zeta. rewrite (carries_get_port _ _ _ _ C1). cbn [snd]. unfold single_linked_input. rewrite T, Nat.eqb_refl. exact A.
Qed.
Lemma extend_complete : forall i r l n l' d, covers i r l -> extends g nodes st r l n l' d -> exists i', try_extend g st i n = Ok (i', d) /\ covers i' r l'.
Proof.
  intros i r l n l' d C E. destruct E as [J|a l' E N|a l' E N].
  - destruct (covers_ends i r l C) as (_ & _ & ks & ke & Ks & Ke & _ & B & _). destruct (B n J) as (k & K & L). exists i. split; [|exact C]. unfold try_extend. rewrite K. unfold position_in_interval. rewrite Ks, Ke, (proj2 (Nat.ltb_ge k ks) ltac:(lia)), (proj2 (Nat.ltb_ge ke k) ltac:(lia)). reflexivity.
  - assert (C' := C). destruct C' as (_ & H & _). rewrite E in H. simpl in H. injection H as ->. destruct (extend_before i r l n C N) as (i' & _ & A & B). exists i'. auto.
  - assert (C' := C). destruct C' as (_ & _ & [x X] & _). rewrite E in X. apply app_inj_tail in X. destruct X as [_ ->]. destruct (extend_after i r l n C N) as (i' & _ & A & B). exists i'. auto.
Qed.
Lemma extend_cases : forall i r l n, covers i r l ->
  (exists e, try_extend g st i n = Err e /\ e <> Panic) \/
  (exists l' d, extends g nodes st r l n l' d) \/
  (try_extend g st i n = Ok (i, None) /\ exists ks k ke, position st (start_node i) = Some ks /\ position st n = Some k /\ position st (end_node i) = Some ke /\ ks <= k <= ke).
Proof.
  intros i r l n C. destruct (covers_ends i r l C) as (Ps & Pe & ks & ke & Ks & Ke & Le & B & _). destruct (try_extend g st i n) eqn:E; unfold try_extend in E.
  - right. destruct (position st n) as [k|] eqn:K; [|discriminate]. assert (Hn := proj1 Hi n k K). unfold position_in_interval in E. rewrite Ks, Ke in E. destruct (Nat.ltb k ks) eqn:L1.
    + left. rewrite (boundary_ok i r l Incoming C) in E. cbn zeta in E. destruct (get_port g st (start_node i) r Incoming) as [p|] eqn:P; [|discriminate]. destruct (get_port_carries _ _ _ _ P) as [Cp D]. destruct p as [dp p]. simpl in D. subst dp. cbn [snd] in E.
      destruct (source g (start_node i) p) as [[m q]|] eqn:Sc; [|discriminate]. destruct (Nat.eqb m n) eqn:M; [|discriminate]. apply Nat.eqb_eq in M. subst m. apply (links g Hv) in Sc.
      exists (n :: l), (Some Incoming). destruct l as [|a0 l']; [destruct (proj1 C)|]. assert (Ha : a0 = start_node i) by (destruct C as (_ & H & _); simpl in H; injection H; auto). eapply Before; [reflexivity|]. rewrite Ha. exists q, p. split; [|split; [exact Sc|apply Cp]]. apply (link_carries r n q (start_node i) p Hn (proj1 Cp) Sc). exact Cp.
    + apply Nat.ltb_ge in L1. destruct (Nat.ltb ke k) eqn:L2.
      * left. rewrite (boundary_ok i r l Outgoing C) in E. cbn zeta in E. destruct (get_port g st (end_node i) r Outgoing) as [p|] eqn:P; [|discriminate]. destruct (get_port_carries _ _ _ _ P) as [Cp D]. destruct p as [dp p]. simpl in D. subst dp. cbn [snd] in E.
        unfold single_linked_input in E. destruct (targets g (end_node i) p) as [|[m q] [|]] eqn:T; try discriminate. destruct (Nat.eqb m n) eqn:M; [|discriminate]. apply Nat.eqb_eq in M. subst m.
        exists (l ++ [n]), (Some Outgoing). destruct C as (_ & _ & [x X] & _). eapply After; [exact X|]. exists p, q. split; [exact Cp|]. rewrite T. split; [left; reflexivity|exact Hn].
      * apply Nat.ltb_ge in L2. right. injection E as <-. split; [reflexivity|]. exists ks, k, ke. auto.
  - destruct (position st n) as [k|] eqn:K; [|left; eexists; split; [reflexivity|]; injection E as <-; discriminate]. assert (Hn := proj1 Hi n k K). unfold position_in_interval in E. rewrite Ks, Ke in E. destruct (Nat.ltb k ks) eqn:L1.
    + rewrite (boundary_ok i r l Incoming C) in E. cbn zeta in E. assert (Z : e = NotContiguous n \/ exists l' d, extends g nodes st r l n l' d).
      { destruct (get_port g st (start_node i) r Incoming) as [p|] eqn:P; [|left; congruence]. destruct (get_port_carries _ _ _ _ P) as [Cp D]. destruct p as [dp p]. simpl in D. subst dp. cbn [snd] in E.
        destruct (source g (start_node i) p) as [[m q]|] eqn:Sc; [|left; congruence]. destruct (Nat.eqb m n) eqn:M; [|left; congruence]. right. apply Nat.eqb_eq in M. subst m. apply (links g Hv) in Sc.
        exists (n :: l), (Some Incoming). destruct l as [|a0 l']; [destruct (proj1 C)|]. assert (Ha : a0 = start_node i) by (destruct C as (_ & H & _); simpl in H; injection H; auto). eapply Before; [reflexivity|]. rewrite Ha. exists q, p. split; [|split; [exact Sc|apply Cp]]. apply (link_carries r n q (start_node i) p Hn (proj1 Cp) Sc). exact Cp. }
      destruct Z as [->|Z]; [left; eexists; split; [reflexivity|discriminate]|right; left; exact Z].
    + destruct (Nat.ltb ke k) eqn:L2; [|discriminate]. rewrite (boundary_ok i r l Outgoing C) in E. cbn zeta in E. assert (Z : e = NotContiguous n \/ exists l' d, extends g nodes st r l n l' d).
      { destruct (get_port g st (end_node i) r Outgoing) as [p|] eqn:P; [|left; congruence]. destruct (get_port_carries _ _ _ _ P) as [Cp D]. destruct p as [dp p]. simpl in D. subst dp. cbn [snd] in E.
        unfold single_linked_input in E. destruct (targets g (end_node i) p) as [|[m q] [|]] eqn:T; try (left; congruence). destruct (Nat.eqb m n) eqn:M; [|left; congruence]. right. apply Nat.eqb_eq in M. subst m.
        exists (l ++ [n]), (Some Outgoing). destruct C as (_ & _ & [x X] & _). eapply After; [exact X|]. exists p, q. split; [exact Cp|]. rewrite T. split; [left; reflexivity|exact Hn]. }
      destruct Z as [->|Z]; [left; eexists; split; [reflexivity|discriminate]|right; left; exact Z].
Qed.
(** On the path, extension is exact. *)
Lemma extend_exact : forall i r l n, covers i r l -> on_path r n ->
  (exists i' l' d, try_extend g st i n = Ok (i', d) /\ extends g nodes st r l n l' d /\ covers i' r l') \/
  (exists e, try_extend g st i n = Err e /\ e <> Panic /\ forall l' d, ~ extends g nodes st r l n l' d).
Proof.
  intros i r l n C P. destruct (extend_cases i r l n C) as [(e & E & Ne)|[(l' & d & X)|(E & ks & k & ke & Ks & K & Ke & L)]].
  - right. exists e. split; [exact E|]. split; [exact Ne|]. intros l' d X. destruct (extend_complete i r l n l' d C X) as (i' & A & _). congruence.
  - left. destruct (extend_complete i r l n l' d C X) as (i' & A & B). exists i', l', d. auto.
  - left. exists i, l, None. split; [exact E|]. split; [|exact C]. apply Inside. destruct (covers_ends i r l C) as (_ & _ & ks' & ke' & Ks' & Ke' & _ & _ & Q). rewrite Ks in Ks'. rewrite Ke in Ke'. injection Ks' as <-. injection Ke' as <-. eapply Q; eauto.
Qed.

(** ** The nodes of an interval *)
Lemma iter_total : forall r fuel n, In n nodes -> resource_path_iter g nodes st r Outgoing fuel n <> None.
Proof.
  intros r. induction fuel as [|fuel IH]; intros n Hn; [discriminate|]. cbn [resource_path_iter]. destruct (get_port g st n r Outgoing) as [p|] eqn:P; [|discriminate]. destruct (get_port_carries _ _ _ _ P) as [Cp D]. destruct p as [dp p]. simpl in D. subst dp. unfold single_linked_port, single_linked_input. cbn [fst snd].
  assert (U := used_once g Hv _ _ (proj1 (proj2 Cp))). destruct (targets g n p) as [|[m q] [|]]; simpl in U; try lia. destruct (contains nodes m) eqn:M; [|discriminate]. apply contains_In in M. specialize (IH m M). destruct (resource_path_iter g nodes st r Outgoing fuel m); [discriminate|congruence].
Qed.
Lemma iter_run : forall r l n fuel, run r (n :: l) -> length (n :: l) <= fuel -> exists rest, resource_path_iter g nodes st r Outgoing fuel n = Some ((n :: l) ++ rest).
Proof.
  intros r. induction l as [|b l IH]; intros n fuel R L; (destruct fuel as [|fuel]; [simpl in L; lia|]).
  - assert (Hn : In n nodes) by (destruct R as [[p C] _]; apply C). assert (X := iter_total r (S fuel) n Hn). assert (Z : forall x, resource_path_iter g nodes st r Outgoing (S fuel) n = Some x -> exists y, x = n :: y).
    { intros x E. cbn [resource_path_iter] in E. destruct (get_port g st n r Outgoing); [|injection E as <-; eauto]. destruct (single_linked_port g n p) as [[m q]|]; [|discriminate]. destruct (contains nodes m); [|injection E as <-; eauto]. destruct (resource_path_iter g nodes st r Outgoing fuel m); [|discriminate]. injection E as <-. eauto. }
    destruct (resource_path_iter g nodes st r Outgoing (S fuel) n) as [x|]; [|congruence]. destruct (Z x eq_refl) as [y ->]. exists y. reflexivity.
  - destruct R as (_ & N & R). destruct (IH b fuel R ltac:(simpl in *; lia)) as [rest E]. destruct (next_facts _ _ _ N) as (p & j & C1 & C2 & T & _). exists rest. cbn [resource_path_iter]. rewrite (carries_get_port _ _ _ _ C1). unfold single_linked_port, single_linked_input. cbn [fst snd]. rewrite T. assert (contains nodes b = true) as -> by (apply contains_In; apply C2). rewrite E. reflexivity.
Qed.
Lemma take_while_ok : forall e x rest, NoDup (x ++ [e]) -> take_while_inclusive e ((x ++ [e]) ++ rest) = x ++ [e].
Proof.
  intros e. induction x as [|a x IH]; intros rest N; cbn [app take_while_inclusive]; [rewrite Nat.eqb_refl; reflexivity|]. cbn [app] in N. inversion N as [|? ? N1 N2]; subst. assert (Nat.eqb a e = false) as ->; [apply Nat.eqb_neq; intros ->; apply N1; apply in_or_app; right; left; reflexivity|]. f_equal. apply IH. exact N2.
Qed.
Lemma run_length : forall r l, run r l -> length l <= length nodes.
Proof. intros r l R. apply NoDup_incl_length; [eapply run_nodup; eauto|]. intros n J. destruct (run_path r l n R J) as [p C]. apply C. Qed.
Lemma nodes_ok : forall i r l fuel, covers i r l -> length nodes <= fuel -> nodes_in_interval g nodes st fuel i = Some l.
Proof.
  intros i r l fuel C L. unfold nodes_in_interval. rewrite (covers_resource i r l C). assert (C' := C). destruct C' as (R & H & [x X] & _). assert (Rl := run_length r l R). assert (N := run_nodup r l R). destruct l as [|a l]; [destruct R|]. simpl in H. injection H as ->.
  destruct (iter_run r l _ fuel R ltac:(lia)) as [rest ->]. rewrite X in *. rewrite take_while_ok; auto.
Qed.
End Interval.
