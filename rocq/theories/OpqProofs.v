(** Lemmas on the tracker of unsupported nodes and the encoder loop. *)
From Coq Require Import List Bool Arith Lia Permutation.
From Verif Require Import OpqModel OpqSpec.
Import ListNotations.

(** ** The tracker *)
Definition tracked (t : tracker) (n : nat) : Prop := In n (map fst (t_nodes t)).
Definition same (t : tracker) (u v : nat) : Prop := exists c d, In (u, c) (t_nodes t) /\ In (v, d) (t_nodes t) /\ find t c = find t d.
Record ok (t : tracker) : Prop := {
  ok_nodup : NoDup (map fst (t_nodes t));
  ok_ids : forall n c, In (n, c) (t_nodes t) -> c < length (t_rep t);
  ok_rep : forall c, c < length (t_rep t) -> find t c < length (t_rep t) }.

Lemma component_in l n c : component l n = Some c -> In (n, c) l.
Proof. induction l as [|[m d] l IH]; cbn; [discriminate|]. destruct (Nat.eqb_spec m n) as [->|]; [intros [= ->]; now left|]. intros H. right. auto. Qed.
Lemma component_none l n : component l n = None <-> ~ In n (map fst l).
Proof.
  induction l as [|[m d] l IH]; cbn; [tauto|]. destruct (Nat.eqb_spec m n) as [->|N]; [split; [discriminate|intros H; exfalso; apply H; now left]|].
  rewrite IH. split; intros H; [intros [E|E]; auto|intros E; apply H; now right].
Qed.
Lemma in_fst {A B} (l : list (A * B)) x y : In (x, y) l -> In x (map fst l).
Proof. intros H. apply in_map_iff. exists (x, y). auto. Qed.
Lemma fst_unique {A B} (l : list (A * B)) x y z : NoDup (map fst l) -> In (x, y) l -> In (x, z) l -> y = z.
Proof.
  induction l as [|[a b] l IH]; cbn; [tauto|]. intros H. apply NoDup_cons_iff in H. destruct H as [N H]. intros [[= -> ->]|H1] [[= H2]|H2]; auto.
  - exfalso. apply N. eapply in_fst; eauto.
  - subst. exfalso. apply N. eapply in_fst; eauto.
Qed.
Lemma component_some t n c : ok t -> In (n, c) (t_nodes t) -> component (t_nodes t) n = Some c.
Proof.
  intros K H. destruct (component (t_nodes t) n) as [d|] eqn:E.
  - f_equal. apply component_in in E. eapply fst_unique; eauto. apply K.
  - apply component_none in E. exfalso. apply E. eapply in_fst; eauto.
Qed.
Lemma tracked_some t n : tracked t n -> exists c, In (n, c) (t_nodes t).
Proof. unfold tracked. intros H. apply in_map_iff in H. destruct H as ((m & c) & E & H). cbn in E. subst. eauto. Qed.
Lemma tracked_dec t n : tracked t n \/ ~ tracked t n.
Proof. unfold tracked. destruct (in_dec Nat.eq_dec n (map fst (t_nodes t))); auto. Qed.
Lemma same_refl t u : tracked t u -> same t u u.
Proof. intros H. apply tracked_some in H. destruct H as [c H]. exists c, c. auto. Qed.
Lemma same_sym t u v : same t u v -> same t v u.
Proof. intros (c & d & H1 & H2 & E). exists d, c. auto. Qed.
Lemma same_trans t u v w : ok t -> same t u v -> same t v w -> same t u w.
Proof. intros K (a & b & H1 & H2 & E1) (c & d & H3 & H4 & E2). exists a, d. rewrite (fst_unique _ _ _ _ (ok_nodup t K) H2 H3) in E1. repeat split; auto; congruence. Qed.
Lemma same_tracked t u v : same t u v -> tracked t u /\ tracked t v.
Proof. intros (c & d & H1 & H2 & _). split; eapply in_fst; eauto. Qed.

Lemma find_union t a b x : x < length (t_rep t) -> find (union t a b) x = if Nat.eqb (find t x) (find t b) then find t a else find t x.
Proof.
  intros H. unfold find at 1. unfold union; cbn [t_rep]. rewrite nth_indep with (d' := (fun r => if Nat.eqb r (find t b) then find t a else r) 0) by (rewrite map_length; auto).
  rewrite (map_nth (fun r => if Nat.eqb r (find t b) then find t a else r)). reflexivity.
Qed.
Lemma ok_union t a b : ok t -> a < length (t_rep t) -> ok (union t a b).
Proof.
  intros K Ha. split; cbn [union t_nodes t_rep]; [apply K| |]; rewrite map_length; [apply K|]. intros c Hc. rewrite find_union by auto. destruct (Nat.eqb _ _); [|]; apply K; auto.
Qed.
Lemma same_union t m n a b u v : ok t -> In (m, a) (t_nodes t) -> In (n, b) (t_nodes t) ->
  (same (union t a b) u v <-> same t u v \/ (same t u m /\ same t n v) \/ (same t u n /\ same t m v)).
Proof.
  intros K Hm Hn. split.
  - intros (c & d & Hc & Hd & E). cbn [union t_nodes] in Hc, Hd. rewrite !find_union in E by (eapply K; eauto).
    destruct (Nat.eqb_spec (find t c) (find t b)) as [E1|E1], (Nat.eqb_spec (find t d) (find t b)) as [E2|E2].
    + left. exists c, d. repeat split; auto. congruence.
    + right. right. split; [exists c, b|exists a, d]; auto.
    + right. left. split; [exists c, a|exists b, d]; auto.
    + left. exists c, d. auto.
  - assert (M : forall u v, same t u v -> same (union t a b) u v).
    { intros x y (c & d & Hc & Hd & E). exists c, d. cbn [union t_nodes]. repeat split; auto. rewrite !find_union by (eapply K; eauto). rewrite E. auto. }
    assert (J : same (union t a b) m n).
    { exists a, b. cbn [union t_nodes]. repeat split; auto. rewrite !find_union by (eapply K; eauto). rewrite Nat.eqb_refl. destruct (Nat.eqb _ _); auto. }
    assert (K' : ok (union t a b)) by (apply ok_union; auto; eapply K; eauto).
    intros [H|[[H1 H2]|[H1 H2]]]; auto.
    + apply (same_trans _ u m v); auto. apply (same_trans _ m n v); auto.
    + apply (same_trans _ u n v); auto. apply (same_trans _ n m v); auto. apply same_sym; auto.
Qed.

Section Record.
Variables (l : list node) (n : nat).
(** [R]: any relation that contains the old classes and the new edges, and is an equivalence on the tracked nodes. *)
Lemma record_loop nb id t : ok t -> In (n, id) (t_nodes t) ->
  let t' := fold_left (fun t m => match component (t_nodes t) m with Some c => union t c id | None => t end) nb t in
  ok t' /\ t_nodes t' = t_nodes t /\ (forall u v, same t u v -> same t' u v) /\ (forall m, In m nb -> tracked t m -> same t' m n) /\
  (forall R : nat -> nat -> Prop, (forall u v, same t u v -> R u v) -> (forall u v, R u v -> R v u) -> (forall u v w, R u v -> R v w -> R u w) ->
     (forall m, In m nb -> tracked t m -> R m n) -> forall u v, same t' u v -> R u v).
Proof.
  revert t. induction nb as [|m nb IH]; intros t K Hn; cbn [fold_left].
  - repeat split; auto; try apply K. intros m [].
  - destruct (component (t_nodes t) m) as [c|] eqn:Ec.
    + apply component_in in Ec. assert (K' : ok (union t c id)) by (apply ok_union; auto; eapply K; eauto).
      destruct (IH (union t c id) K' Hn) as (H1 & H2 & H3 & H4 & H5). split; auto. split; [rewrite H2; reflexivity|]. split; [|split].
      * intros u v H. apply H3. apply (same_union t m n c id); auto.
      * intros x [<-|Hx] Ht; [|apply H4; auto]. apply H3. apply (same_union t m n c id); auto. right. left. split; apply same_refl; [eapply in_fst; eauto|eapply in_fst; eauto].
      * intros R R1 R2 R3 R4 u v H. apply (H5 R); auto.
        -- intros x y Hxy. apply (same_union t m n c id) in Hxy; auto. destruct Hxy as [Hxy|[[Hxy Hyz]|[Hxy Hyz]]]; auto.
           ++ apply (R3 x m y); auto. apply (R3 m n y); auto. apply R4; [now left|eapply in_fst; eauto].
           ++ apply (R3 x n y); auto. apply (R3 n m y); auto. apply R2. apply R4; [now left|eapply in_fst; eauto].
        -- intros x Hx Ht. apply R4; auto. now right.
    + destruct (IH t K Hn) as (H1 & H2 & H3 & H4 & H5). split; auto. split; auto. split; auto. split.
      * intros x [<-|Hx] Ht; auto. exfalso. apply component_none in Ec. auto.
      * intros R R1 R2 R3 R4. apply H5; auto. intros x Hx. apply R4. now right.
Qed.
Lemma record_ok nb t : ok t -> ~ tracked t n -> let t' := record_node t n nb in
  ok t' /\ map fst (t_nodes t') = n :: map fst (t_nodes t) /\ (forall u v, same t u v -> same t' u v) /\ (forall m, In m nb -> tracked t m -> same t' m n) /\
  (forall R : nat -> nat -> Prop, (forall u v, same t u v -> R u v) -> R n n -> (forall u v, R u v -> R v u) -> (forall u v w, R u v -> R v w -> R u w) ->
     (forall m, In m nb -> m <> n -> tracked t m -> R m n) -> forall u v, same t' u v -> R u v).
Proof.
  intros K N. unfold record_node. set (id := length (t_rep t)). set (t0 := {| t_nodes := (n, id) :: t_nodes t; t_rep := t_rep t ++ [id] |}).
  assert (F : forall c, c < id -> find t0 c = find t c) by (intros c Hc; unfold find, t0; cbn [t_rep]; apply app_nth1; auto).
  assert (Fi : find t0 id = id) by (unfold find, t0; cbn [t_rep]; rewrite app_nth2 by (unfold id; lia); replace (id - length (t_rep t)) with 0 by (unfold id; lia); reflexivity).
  assert (K0 : ok t0).
  { split; cbn [t0 t_nodes t_rep map fst].
    - constructor; auto. apply K.
    - rewrite app_length. cbn [length]. intros m c [[= <- <-]|H]; [unfold id; lia|]. apply (ok_ids t K) in H. lia.
    - rewrite app_length. cbn [length]. intros c Hc. destruct (Nat.eq_dec c id) as [->|Hne]; [rewrite Fi; unfold id; lia|]. assert (c < id) by (unfold id in *; lia). rewrite F by auto.
      assert (find t c < length (t_rep t)) by (apply K; auto). lia. }
  assert (M : forall u v, same t u v -> same t0 u v).
  { intros u v (c & d & Hc & Hd & E). exists c, d. cbn [t0 t_nodes]. split; [now right|]. split; [now right|]. rewrite !F by (eapply (ok_ids t K); eauto). auto. }
  assert (M' : forall u v, same t0 u v -> same t u v \/ u = n /\ v = n).
  { intros u v (c & d & [[= <- <-]|Hc] & [[= <- <-]|Hd] & E); auto.
    - exfalso. rewrite Fi, F in E by (eapply (ok_ids t K); eauto). assert (H : find t d < id) by (apply K; eapply (ok_ids t K); eauto). lia.
    - exfalso. rewrite Fi, F in E by (eapply (ok_ids t K); eauto). assert (H : find t c < id) by (apply K; eapply (ok_ids t K); eauto). lia.
    - left. exists c, d. split; auto. split; auto. rewrite !F in E by (eapply (ok_ids t K); eauto). auto. }
  destruct (record_loop nb id t0 K0 (or_introl eq_refl)) as (H1 & H2 & H3 & H4 & H5). cbv zeta. fold id. split; auto. split; [rewrite H2; reflexivity|]. split; auto. split.
  - intros m Hm Ht. apply H4; auto. right. auto.
  - intros R R1 Rn R2 R3 R4. apply H5; auto.
    + intros u v H. destruct (M' u v H) as [H'|[-> ->]]; auto.
    + intros m Hm [Ht|Ht]; [cbn in Ht; subst; auto|]. destruct (Nat.eq_dec m n) as [->|Hne]; auto.
Qed.
End Record.

Lemma extract_none t n : extract_component t n = None <-> ~ tracked t n.
Proof. unfold extract_component, tracked. destruct (component (t_nodes t) n) as [c|] eqn:E; [|split; auto; intros _; apply component_none; auto]. split; [discriminate|]. intros N. exfalso. apply N. eapply in_fst. apply component_in. eauto. Qed.
Lemma filter_split {A} (f : A -> bool) l : Permutation (filter f l ++ filter (fun x => negb (f x)) l) l.
Proof. induction l as [|x l IH]; cbn; auto. destruct (f x); cbn; [constructor; auto|]. apply Permutation_sym. apply Permutation_cons_app. apply Permutation_sym. auto. Qed.
Lemma NoDup_fst_filter {A B} (f : A * B -> bool) l : NoDup (map fst l) -> NoDup (map fst (filter f l)).
Proof.
  induction l as [|[a b] l IH]; cbn; auto. intros H. apply NoDup_cons_iff in H. destruct H as [N H]. destruct (f (a, b)); cbn; auto. constructor; auto.
  intros Hin. apply N. apply in_map_iff in Hin. destruct Hin as (x & Ex & Hx). apply filter_In in Hx. apply in_map_iff. exists x. tauto.
Qed.
Lemma extract_some t n g t' : ok t -> extract_component t n = Some (g, t') ->
  ok t' /\ tracked t n /\ (forall m, In m g <-> same t n m) /\ Permutation (g ++ map fst (t_nodes t')) (map fst (t_nodes t)) /\
  (forall u v, same t' u v -> same t u v) /\ (forall u v, same t u v -> ~ In u g -> same t' u v) /\ length (t_nodes t') < length (t_nodes t).
Proof.
  intros K H. unfold extract_component in H. destruct (component (t_nodes t) n) as [c|] eqn:Ec; [|discriminate]. apply component_in in Ec. set (f := fun x : nat * nat => Nat.eqb (find t (snd x)) (find t c)) in H. injection H as <- <-.
  assert (G : forall m, In m (map fst (filter f (t_nodes t))) <-> same t n m).
  { intros m. split.
    - intros H. apply in_map_iff in H. destruct H as ((m' & d) & E & H). cbn in E. subst m'. apply filter_In in H. destruct H as [H E]. unfold f in E. apply Nat.eqb_eq in E. cbn in E. exists c, d. auto.
    - intros (c' & d & Hc & Hd & E). rewrite <- (fst_unique _ _ _ _ (ok_nodup t K) Ec Hc) in E. apply in_map_iff. exists (m, d). split; auto. apply filter_In. split; auto. unfold f. apply Nat.eqb_eq. cbn. auto. }
  assert (P : Permutation (map fst (filter f (t_nodes t)) ++ map fst (filter (fun x => negb (f x)) (t_nodes t))) (map fst (t_nodes t))) by (rewrite <- map_app; apply Permutation_map; apply filter_split).
  split; [|split; [eapply in_fst; eauto|split; [exact G|split; [exact P|split; [|split]]]]].
  - split; cbn [t_nodes t_rep]; [apply NoDup_fst_filter; apply K| |apply K]. intros m d H. apply filter_In in H. eapply K. apply H.
  - intros u v (a & b & Ha & Hb & E). cbn [t_nodes] in *. apply filter_In in Ha, Hb. exists a, b. tauto.
  - intros u v (a & b & Ha & Hb & E) N. exists a, b. cbn [t_nodes]. assert (Na : Nat.eqb (find t a) (find t c) = false).
    { apply Nat.eqb_neq. intros Q. apply N. apply G. exists c, a. auto. }
    split; [apply filter_In; split; auto; unfold f; cbn; rewrite Na; reflexivity|]. split; [|exact E]. apply filter_In. split; auto. unfold f. cbn. rewrite <- E, Na. reflexivity.
  - cbn [t_nodes]. assert (L := Permutation_length P). rewrite app_length, !map_length in L. assert (Hn : In n (map fst (filter f (t_nodes t)))) by (apply G; apply same_refl; eapply in_fst; eauto).
    destruct (filter f (t_nodes t)); [destruct Hn|]. change (length (filter (fun x => negb (f x)) (t_nodes t)) < length (t_nodes t)). cbn [length] in L. lia.
Qed.

(** ** Groups in order *)
Lemma in_order_snoc l gs g : in_order l gs -> (forall v u, In v g -> edge l u v -> In u (concat gs ++ g)) -> in_order l (gs ++ [g]).
Proof.
  intros H Hg a h b E v u Hv He. destruct b as [|x b] using rev_ind.
  - apply app_inj_tail in E. destruct E as [-> ->]. eauto.
  - clear IHb. rewrite app_comm_cons, app_assoc in E. apply app_inj_tail in E. destruct E as [-> _]. eapply H; eauto.
Qed.
Lemma in_order_nil l : in_order l [].
Proof. intros [|? ?] g b E; discriminate. Qed.
Lemma linked_mono l g h u v : incl g h -> linked l g u v -> linked l h u v.
Proof. intros I H. induction H; [constructor; auto|econstructor; eauto]. Qed.
Lemma linked_in l g u v : linked l g u v -> In u g /\ In v g.
Proof. induction 1; tauto. Qed.
Lemma linked_trans l g u v w : linked l g u v -> linked l g v w -> linked l g u w.
Proof. intros H1 H2. induction H2; auto. econstructor; eauto. Qed.
Lemma linked_sym l g u v : linked l g u v -> linked l g v u.
Proof.
  induction 1 as [|v w H IH Hw E]; [constructor; auto|]. apply linked_trans with v; auto. econstructor; [constructor; auto|apply (linked_in _ _ _ _ H)|tauto].
Qed.

Lemma lookup_register r g id r' : register r g = (id, r') -> id = (r_id r, r_next r) /\ r' = {| r_id := r_id r; r_next := r_next r + 1; r_graphs := (id, g) :: r_graphs r |}.
Proof. unfold register. intros [= <- <-]. split; reflexivity. Qed.
Lemma id_eqb_spec a b : id_eqb a b = true <-> a = b.
Proof. destruct a, b. unfold id_eqb. cbn. rewrite andb_true_iff, !Nat.eqb_eq. split; [intros [-> ->]; auto|intros [= -> ->]; auto]. Qed.
Record reg_ok (r : registry) : Prop := {
  rk_id : forall i g, In (i, g) (r_graphs r) -> fst i = r_id r /\ snd i < r_next r;
  rk_nodup : NoDup (map fst (r_graphs r)) }.
Lemma reg_new id : reg_ok (new_registry id).
Proof. split; cbn; [tauto|constructor]. Qed.
Lemma reg_register r g id r' : reg_ok r -> register r g = (id, r') -> reg_ok r' /\ In (id, g) (r_graphs r') /\ incl (r_graphs r) (r_graphs r') /\ r_id r' = r_id r.
Proof.
  intros [K1 K2] H. apply lookup_register in H. destruct H as [-> ->]. split; [|split; [now left|split; [intros x; now right|reflexivity]]]. split; cbn.
  - intros i h [[= <- <-]|H]; cbn; [lia|]. apply K1 in H. lia.
  - constructor; auto. intros H. apply in_map_iff in H. destruct H as ((i & h) & E & H). cbn in E. subst i. apply K1 in H. cbn in H. lia.
Qed.
Lemma lookup_in (l : list (subgraph_id * list nat)) i g : NoDup (map fst l) -> (lookup l i = Some g <-> In (i, g) l).
Proof.
  induction l as [|[j h] l IH]; cbn; intros N; [split; [discriminate|tauto]|]. apply NoDup_cons_iff in N. destruct N as [N1 N2]. destruct (id_eqb j i) eqn:E.
  - apply id_eqb_spec in E. subst j. split; [intros [= ->]; now left|]. intros [[= ->]|H]; auto. exfalso. apply N1. eapply in_fst; eauto.
  - rewrite IH by auto. split; [now right|]. intros [[= -> ->]|H]; auto. rewrite (proj2 (id_eqb_spec i i) eq_refl) in E. discriminate.
Qed.

Section Run.
Variable l : list node.
Variable registers : list nat -> bool.
Hypothesis top : topological l.
Definition emitted (s : state) : list nat := concat (map members (s_items s)).
Definition tids (s : state) : list nat := map fst (t_nodes (s_tracker s)).
(** Joined: the two ends of an edge are in one class or command, or a node at or before the target read the class of the source. *)
Definition read_by (p : list node) (g : list nat) : Prop := exists x w, In x p /\ In w (n_reads x) /\ In w g.
Definition joined (s : state) (extra : list nat) : Prop := forall p xv q u, l = p ++ xv :: q -> n_ok xv = false -> unsupported l u -> edge l u (n_id xv) ->
  In (n_id xv) (tids s ++ emitted s ++ extra) ->
  same (s_tracker s) u (n_id xv) \/ (exists i g, In (OpaqueBarrier i g) (s_items s) /\ In u g /\ In (n_id xv) g) \/
  (In u extra /\ In (n_id xv) extra) \/ (exists i g, In (OpaqueBarrier i g) (s_items s) /\ In u g /\ read_by (p ++ [xv]) g).
Definition item_ok (r : registry) (i : item) : Prop := match i with
  | Command n => supported l n
  | OpaqueBarrier i g => g <> [] /\ (forall u, In u g -> unsupported l u) /\ (forall u v, In u g -> In v g -> linked l g u v) /\ In (i, g) (r_graphs r) /\ registers g = true end.
Record inv (a : list node) (s : state) (extra : list nat) : Prop := {
  i_tr : ok (s_tracker s);
  i_perm : Permutation (tids s ++ emitted s ++ extra) (map n_id a);
  i_prefix : incl a l;
  i_pred : forall u v, tracked (s_tracker s) v -> edge l u v -> same (s_tracker s) u v \/ In u (emitted s);
  i_order : in_order l (map members (s_items s));
  i_extra : forall u v, In v extra -> edge l u v -> In u (emitted s ++ extra);
  i_uns : forall u, In u (tids s ++ extra) -> unsupported l u;
  i_items : forall i, In i (s_items s) -> item_ok (s_reg s) i;
  i_reg : reg_ok (s_reg s);
  i_link : forall u v, same (s_tracker s) u v -> exists g, (forall m, In m g -> same (s_tracker s) u m) /\ linked l g u v;
  i_join : joined s extra }.

Lemma nodup_prefix a b : l = a ++ b -> NoDup (map n_id a).
Proof. intros E. destruct top as [N _]. rewrite E, map_app in N. clear -N. induction (map n_id a) as [|x m IH]; constructor; cbn in N; apply NoDup_cons_iff in N; destruct N as [N1 N2]; auto. intros H. apply N1. apply in_or_app. auto. Qed.
Lemma id_unique x y : In x l -> In y l -> n_id x = n_id y -> x = y.
Proof.
  destruct top as [N _]. revert N. generalize l. intros k. induction k as [|z k IH]; cbn; [tauto|]. intros N. apply NoDup_cons_iff in N. destruct N as [N1 N2]. intros [->|Hx] [->|Hy] E; auto.
  - exfalso. apply N1. rewrite E. apply in_map. auto.
  - exfalso. apply N1. rewrite <- E. apply in_map. auto.
Qed.
Lemma edge_before p x q u : l = p ++ x :: q -> edge l u (n_id x) -> In u (n_in x ++ n_order x) /\ In u (map n_id p).
Proof.
  intros E (y & Hy & Ey & Hu). assert (y = x) by (apply id_unique; auto; rewrite E; apply in_or_app; right; now left). subst y. split; auto. destruct top as [_ T]. eapply T; eauto.
Qed.
Lemma nodup_app_disj {A} (a b : list A) x : NoDup (a ++ b) -> In x a -> In x b -> False.
Proof. induction a as [|y a IH]; cbn; [tauto|]. intros N. apply NoDup_cons_iff in N. destruct N as [N1 N2]. intros [->|Ha] Hb; eauto. apply N1. apply in_or_app. auto. Qed.

Lemma boundary_preds g m : In m (boundary l g) -> ~ In m g /\ exists v, In v g /\ edge l m v.
Proof.
  unfold boundary. intros H. apply filter_In in H. destruct H as [H N]. split.
  - intros Hm. apply negb_true_iff in N. assert (existsb (Nat.eqb m) g = true) by (apply existsb_exists; exists m; split; auto; apply Nat.eqb_refl). congruence.
  - apply in_flat_map in H. destruct H as (v & Hv & Hm). exists v. split; auto. unfold inputs_of in Hm. apply in_flat_map in Hm. destruct Hm as (x & Hx & Hm). destruct (Nat.eqb_spec (n_id x) v) as [E|]; [|destruct Hm].
    exists x. split; auto. split; auto. apply in_or_app. auto.
Qed.
Lemma untracked_gwv fuel s m : ~ tracked (s_tracker s) m -> fst (get_wire_values l registers fuel s m) = s.
Proof. intros N. destruct fuel; cbn [get_wire_values]; auto. apply extract_none in N. rewrite N. reflexivity. Qed.
Lemma fold_untracked fuel s ms : (forall m, In m ms -> ~ tracked (s_tracker s) m) -> fold_left (fun s m => fst (get_wire_values l registers fuel s m)) ms s = s.
Proof. induction ms as [|m ms IH]; cbn; auto. intros H. rewrite untracked_gwv by auto. apply IH. auto. Qed.

(** One read of a wire: nothing happens, or the class of its node is emitted, or it has no registers. *)
Lemma gwv a b s extra fuel u s' ok' : l = a ++ b -> inv a s extra -> get_wire_values l registers (S fuel) s u = (s', ok') ->
  (~ tracked (s_tracker s) u /\ s' = s /\ ok' = true) \/
  (exists g t i r, extract_component (s_tracker s) u = Some (g, t) /\ register (s_reg s) g = (i, r) /\ ok' = registers g /\
     s' = {| s_tracker := t; s_items := s_items s ++ (if registers g then [OpaqueBarrier i g] else []); s_reg := r |}).
Proof.
  intros El I H. cbn [get_wire_values] in H. destruct (extract_component (s_tracker s) u) as [[g t]|] eqn:Ex.
  2:{ left. injection H as <- <-. split; auto. apply extract_none; auto. }
  right. destruct (register (s_reg s) g) as [i r] eqn:Er. exists g, t, i, r. split; auto. split; auto.
  destruct (extract_some _ _ _ _ (i_tr _ _ _ I) Ex) as (K & Tu & G & P & S1 & S2 & L).
  rewrite fold_untracked in H.
  2:{ cbn [s_tracker]. intros m Hm Ht. apply boundary_preds in Hm. destruct Hm as (Nm & v & Hv & He).
      assert (Tv : tracked (s_tracker s) v) by (apply G in Hv; apply same_tracked in Hv; tauto).
      destruct (i_pred _ _ _ I m v Tv He) as [Hs|Hs].
      - apply Nm. apply G. apply same_trans with v; [apply I|apply G; auto|apply same_sym; auto].
      - assert (ND : NoDup (tids s ++ emitted s ++ extra)) by (eapply Permutation_NoDup; [apply Permutation_sym; apply I|eapply nodup_prefix; eauto]).
        eapply nodup_app_disj; [exact ND| |apply in_or_app; left; exact Hs]. unfold tids. eapply Permutation_in; [exact P|]. apply in_or_app. right. exact Ht. }
  cbn [s_tracker s_items s_reg] in H. destruct (registers g) eqn:Rg; injection H as <- <-; split; auto. rewrite app_nil_r. reflexivity.
Qed.
Lemma perm_step {A} (t t' g e x : list A) : Permutation (g ++ t') t -> Permutation (t' ++ (e ++ g) ++ x) (t ++ e ++ x).
Proof.
  intros P. rewrite <- P. rewrite <- !app_assoc. rewrite (app_assoc t'). rewrite (Permutation_app_comm (t' ++ e)). rewrite <- !app_assoc. apply Permutation_app_head. rewrite (Permutation_app_comm x). rewrite <- app_assoc. reflexivity.
Qed.
Lemma perm_step' {A} (t t' g e x : list A) : Permutation (g ++ t') t -> Permutation (t' ++ e ++ x ++ g) (t ++ e ++ x).
Proof. intros P. rewrite !app_assoc. rewrite Permutation_app_comm. rewrite !app_assoc. rewrite <- P. reflexivity. Qed.
Lemma emitted_app t r is js : emitted {| s_tracker := t; s_items := is ++ js; s_reg := r |} = concat (map members is) ++ concat (map members js).
Proof. unfold emitted. cbn [s_items]. rewrite map_app, concat_app. reflexivity. Qed.

(** Emitting the class of [u]; [why] tells why the class may stay apart from later nodes. *)
Lemma emit_inv a b s extra u g t i r : l = a ++ b -> inv a s extra -> extract_component (s_tracker s) u = Some (g, t) -> register (s_reg s) g = (i, r) -> registers g = true ->
  inv a {| s_tracker := t; s_items := s_items s ++ [OpaqueBarrier i g]; s_reg := r |} extra.
Proof.
  intros El I Ex Er Rg. destruct (extract_some _ _ _ _ (i_tr _ _ _ I) Ex) as (K & Tu & G & P & S1 & S2 & L).
  assert (Ed : forall v w, In v g -> edge l w v -> In w (emitted s ++ g)).
  { intros v w Hv He. assert (Tv : tracked (s_tracker s) v) by (apply G in Hv; apply same_tracked in Hv; tauto). apply in_or_app. destruct (i_pred _ _ _ I w v Tv He) as [Hs|Hs]; auto. right. apply G.
    apply same_trans with v; [apply I|apply G; auto|apply same_sym; auto]. }
  assert (Eg : emitted {| s_tracker := t; s_items := s_items s ++ [OpaqueBarrier i g]; s_reg := r |} = emitted s ++ g) by (rewrite emitted_app; cbn; rewrite app_nil_r; reflexivity).
  destruct (reg_register _ _ _ _ (i_reg _ _ _ I) Er) as (Rk & Rin & Rinc & _).
  assert (Sub : forall v, tracked t v -> tracked (s_tracker s) v /\ ~ In v g).
  { intros v Hv. split; [unfold tracked; eapply Permutation_in; [exact P|apply in_or_app; right; exact Hv]|]. intros Hg. eapply nodup_app_disj; [|exact Hg|exact Hv]. eapply Permutation_NoDup; [apply Permutation_sym; exact P|apply I]. }
  assert (Gs : forall v w, same (s_tracker s) v w -> ~ In w g -> ~ In v g).
  { intros v w Hvw N Hv. apply N. apply G. apply same_trans with v; auto; [apply I|apply G; auto]. }
  split; cbn [s_tracker s_items s_reg]; auto.
  - rewrite Eg. unfold tids. cbn [s_tracker]. rewrite perm_step by exact P. apply I.
  - apply I.
  - intros w v Hv He. rewrite Eg. destruct (Sub v Hv) as [Tv Nv]. destruct (i_pred _ _ _ I w v Tv He) as [Hs|Hs]; [left|right; apply in_or_app; auto]. apply S2; auto. apply (Gs w v); auto.
  - rewrite map_app. apply in_order_snoc; [apply I|]. cbn [members]. exact Ed.
  - intros w v Hv He. rewrite Eg. assert (H := i_extra _ _ _ I w v Hv He). rewrite !in_app_iff in *. tauto.
  - intros w Hw. apply (i_uns _ _ _ I). unfold tids in *. cbn [s_tracker] in Hw. apply in_app_or in Hw. apply in_or_app. destruct Hw as [Hw|Hw]; auto. left. apply Sub. exact Hw.
  - intros j Hj. apply in_app_or in Hj. destruct Hj as [Hj|[<-|[]]].
    + apply (i_items _ _ _ I) in Hj. destruct j; cbn [item_ok] in *; auto. destruct Hj as (H1 & H2 & H3 & H4 & H5). repeat split; auto.
    + cbn [item_ok]. split; [intros ->; apply (proj2 (G u)); apply same_refl; auto|]. split.
      * intros w Hw. apply (i_uns _ _ _ I). apply in_or_app. left. apply G in Hw. apply same_tracked in Hw. apply Hw.
      * split; [|split; auto]. assert (Q : forall w, In w g -> linked l g u w).
        { intros w Hw. apply G in Hw. destruct (i_link _ _ _ I u w Hw) as (h & Hh & HL). apply (linked_mono l h); auto. intros m Hm. apply G. auto. }
        intros v w Hv Hw. apply linked_trans with u; auto. apply linked_sym. auto.
  - intros v w Hvw. assert (Hvw' := S1 _ _ Hvw). destruct (i_link _ _ _ I v w Hvw') as (h & Hh & HL). exists h. split; auto. intros m Hm. apply S2; auto. apply same_tracked in Hvw. apply Sub. apply Hvw.
  - intros p xv q w Elx Hok Hw He Hin. rewrite Eg in Hin. unfold tids in Hin. cbn [s_tracker s_items] in *.
    assert (Hin' : In (n_id xv) (tids s ++ emitted s ++ extra)) by (eapply Permutation_in; [apply perm_step; exact P|exact Hin]).
    destruct (i_join _ _ _ I p xv q w Elx Hok Hw He Hin') as [Hs|[(j & h & H1 & H2 & H3)|[H1|(j & h & H1 & H2 & H3)]]].
    + destruct (in_dec Nat.eq_dec w g) as [Hg|Hg].
      * right. left. exists i, g. split; [apply in_or_app; right; now left|]. split; auto. apply G. apply same_trans with w; auto; [apply I|apply G; auto].
      * left. apply S2; auto.
    + right. left. exists j, h. split; [apply in_or_app; auto|auto].
    + right. right. left. auto.
    + right. right. right. exists j, h. split; [apply in_or_app; auto|auto].
Qed.
(** A class without registers joins the extra nodes. *)
Lemma extra_inv a b s extra u g t i r : l = a ++ b -> inv a s extra -> extract_component (s_tracker s) u = Some (g, t) -> register (s_reg s) g = (i, r) ->
  inv a {| s_tracker := t; s_items := s_items s ++ []; s_reg := r |} (extra ++ g).
Proof.
  intros El I Ex Er. rewrite app_nil_r. destruct (extract_some _ _ _ _ (i_tr _ _ _ I) Ex) as (K & Tu & G & P & S1 & S2 & L).
  assert (Ed : forall v w, In v g -> edge l w v -> In w (emitted s ++ g)).
  { intros v w Hv He. assert (Tv : tracked (s_tracker s) v) by (apply G in Hv; apply same_tracked in Hv; tauto). apply in_or_app. destruct (i_pred _ _ _ I w v Tv He) as [Hs|Hs]; auto. right. apply G.
    apply same_trans with v; [apply I|apply G; auto|apply same_sym; auto]. }
  destruct (reg_register _ _ _ _ (i_reg _ _ _ I) Er) as (Rk & Rin & Rinc & _).
  assert (Sub : forall v, tracked t v -> tracked (s_tracker s) v /\ ~ In v g).
  { intros v Hv. split; [unfold tracked; eapply Permutation_in; [exact P|apply in_or_app; right; exact Hv]|]. intros Hg. eapply nodup_app_disj; [|exact Hg|exact Hv]. eapply Permutation_NoDup; [apply Permutation_sym; exact P|apply I]. }
  assert (Gs : forall v w, same (s_tracker s) v w -> ~ In w g -> ~ In v g).
  { intros v w Hvw N Hv. apply N. apply G. apply same_trans with v; auto; [apply I|apply G; auto]. }
  assert (P' : Permutation (map fst (t_nodes t) ++ emitted s ++ extra ++ g) (tids s ++ emitted s ++ extra)) by (apply perm_step'; exact P).
  split; cbn [s_tracker s_items s_reg]; auto.
  - etransitivity; [exact P'|apply I].
  - apply I.
  - intros w v Hv He. destruct (Sub v Hv) as [Tv Nv]. destruct (i_pred _ _ _ I w v Tv He) as [Hs|Hs]; [left|right; auto]. apply S2; auto. apply (Gs w v); auto.
  - apply I.
  - intros w v Hv He. change (emitted _) with (emitted s). apply in_app_or in Hv. destruct Hv as [Hv|Hv].
    + assert (H := i_extra _ _ _ I w v Hv He). rewrite !in_app_iff in *. tauto.
    + assert (H := Ed v w Hv He). rewrite !in_app_iff in *. tauto.
  - intros w Hw. apply (i_uns _ _ _ I). unfold tids in *. cbn [s_tracker] in Hw. rewrite !in_app_iff in *. destruct Hw as [Hw|[Hw|Hw]]; auto; left; [apply Sub; exact Hw|]. apply G in Hw. apply same_tracked in Hw. apply Hw.
  - intros j Hj. apply (i_items _ _ _ I) in Hj. destruct j; cbn [item_ok] in *; auto. destruct Hj as (H1 & H2 & H3 & H4 & H5). repeat split; auto.
  - intros v w Hvw. assert (Hvw' := S1 _ _ Hvw). destruct (i_link _ _ _ I v w Hvw') as (h & Hh & HL). exists h. split; auto. intros m Hm. apply S2; auto. apply same_tracked in Hvw. apply Sub. apply Hvw.
  - intros p xv q w Elx Hok Hw He Hin. cbn [s_tracker s_items] in *.
    assert (Hin' : In (n_id xv) (tids s ++ emitted s ++ extra)) by (eapply Permutation_in; [exact P'|exact Hin]).
    destruct (i_join _ _ _ I p xv q w Elx Hok Hw He Hin') as [Hs|[H1|[[H1 H2]|H1]]]; auto.
    + destruct (in_dec Nat.eq_dec w g) as [Hg|Hg]; [|left; apply S2; auto]. right. right. left. split; apply in_or_app; right; auto. apply G. apply same_trans with w; auto; [apply I|apply G; auto].
    + right. right. left. rewrite !in_app_iff. auto.
Qed.

Definition readers (p : list node) (s : state) : Prop := forall i g, In (OpaqueBarrier i g) (s_items s) -> read_by p g.
(** Why an encoding fails. *)
Definition blocked : Prop := exists x w g, In x l /\ In w (n_reads x) /\ In w g /\ (forall u, In u g -> unsupported l u) /\ (forall u v, In u g -> In v g -> linked l g u v) /\ registers g = false.
Lemma class_facts a s extra u g t : inv a s extra -> extract_component (s_tracker s) u = Some (g, t) ->
  In u g /\ (forall v, In v g -> unsupported l v) /\ (forall v w, In v g -> In w g -> linked l g v w) /\ (forall v, tracked t v -> tracked (s_tracker s) v) /\ ~ tracked t u.
Proof.
  intros I Ex. destruct (extract_some _ _ _ _ (i_tr _ _ _ I) Ex) as (K & Tu & G & P & S1 & S2 & L). assert (Hu : In u g) by (apply G; apply same_refl; auto). split; auto. split; [|split; [|split]].
  - intros w Hw. apply (i_uns _ _ _ I). apply in_or_app. left. apply G in Hw. apply same_tracked in Hw. apply Hw.
  - assert (Q : forall w, In w g -> linked l g u w).
    { intros w Hw. apply G in Hw. destruct (i_link _ _ _ I u w Hw) as (h & Hh & HL). apply (linked_mono l h); auto. intros m Hm. apply G. auto. }
    intros v w Hv Hw. apply linked_trans with u; auto. apply linked_sym. auto.
  - intros v Hv. unfold tracked. eapply Permutation_in; [exact P|apply in_or_app; right; exact Hv].
  - intros H. eapply nodup_app_disj; [|exact Hu|exact H]. eapply Permutation_NoDup; [apply Permutation_sym; exact P|apply I].
Qed.
Lemma read_all_inv a b x p us s : l = a ++ b -> In x l -> In x p -> incl us (n_reads x) -> inv a s [] -> readers p s ->
  match read_all l registers s us with
  | Some s' => inv a s' [] /\ readers p s' /\ (forall v, tracked (s_tracker s') v -> tracked (s_tracker s) v) /\ (forall u, In u us -> ~ tracked (s_tracker s') u)
  | None => blocked
  end.
Proof.
  intros El Hx Hp. revert s. induction us as [|u us IH]; intros s Hus I R; [cbn [read_all]; split; [exact I|split; [exact R|split; [auto|intros ? []]]]|]. cbn [read_all].
  destruct (get_wire_values l registers (depth s) s u) as [s1 k] eqn:E. unfold depth in E. destruct (gwv _ _ _ _ _ _ _ _ El I E) as [(N & -> & ->)|(g & t & i & r & Ex & Er & -> & ->)].
  - assert (H := IH s (fun z Hz => Hus z (or_intror Hz)) I R). destruct (read_all l registers s us) as [s'|]; auto. destruct H as (H1 & H2 & H3 & H4). split; auto. split; auto. split; auto. intros v [<-|Hv]; auto.
  - destruct (class_facts _ _ _ _ _ _ I Ex) as (Hu & Hg & Lk & Tr & Nt). destruct (registers g) eqn:Rg.
    + assert (I1 : inv a {| s_tracker := t; s_items := s_items s ++ [OpaqueBarrier i g]; s_reg := r |} []) by (eapply emit_inv; eauto).
      assert (R1 : readers p {| s_tracker := t; s_items := s_items s ++ [OpaqueBarrier i g]; s_reg := r |}).
      { intros j h Hj. cbn [s_items] in Hj. apply in_app_or in Hj. destruct Hj as [Hj|[[= <- <-]|[]]]; [eapply R; eauto|]. exists x, u. split; auto. split; auto. apply Hus. now left. }
      assert (H := IH _ (fun z Hz => Hus z (or_intror Hz)) I1 R1). destruct (read_all l registers _ us) as [s'|]; auto. destruct H as (H1 & H2 & H3 & H4). cbn [s_tracker] in H3. split; auto. split; auto. split; auto.
      intros v [<-|Hv]; auto.
    + exists x, u, g. split; auto. split; [apply Hus; now left|]. split; auto.
Qed.
Lemma ids_prefix a s extra u : inv a s extra -> In u (map n_id a) -> tracked (s_tracker s) u \/ In u (emitted s) \/ In u extra.
Proof. intros I H. apply (Permutation_in _ (Permutation_sym (i_perm _ _ _ I))) in H. rewrite !in_app_iff in H. exact H. Qed.
Lemma emitted_item s u : In u (emitted s) -> exists i, In i (s_items s) /\ In u (members i).
Proof. unfold emitted. intros H. apply in_concat in H. destruct H as (g & Hg & Hu). apply in_map_iff in Hg. destruct Hg as (i & <- & Hi). eauto. Qed.
Lemma supported_not u : supported l u -> unsupported l u -> False.
Proof. intros (x & Hx & Ex & Kx) (y & Hy & Ey & Ky). assert (x = y) by (apply id_unique; auto; congruence). subst. congruence. Qed.
Hypothesis reads : reads_inputs l.
Lemma command_inv a x b s : l = a ++ x :: b -> inv a s [] -> n_ok x = true -> (forall u, In u (n_reads x) -> ~ tracked (s_tracker s) u) ->
  inv (a ++ [x]) {| s_tracker := s_tracker s; s_items := s_items s ++ [Command (n_id x)]; s_reg := s_reg s |} [].
Proof.
  intros El I Kx Nt. assert (Hx : In x l) by (rewrite El; apply in_or_app; right; now left).
  assert (Eg : forall t r, emitted {| s_tracker := t; s_items := s_items s ++ [Command (n_id x)]; s_reg := r |} = emitted s ++ [n_id x]) by (intros; rewrite emitted_app; reflexivity).
  split; cbn [s_tracker s_items s_reg]; try apply I.
  - rewrite Eg. rewrite map_app. cbn [map]. rewrite app_nil_r. rewrite app_assoc. apply Permutation_app_tail. assert (H := i_perm _ _ _ I). rewrite app_nil_r in H. exact H.
  - intros y Hy. apply in_app_or in Hy. destruct Hy as [Hy|[<-|[]]]; auto. apply (i_prefix _ _ _ I). auto.
  - intros u v Hv He. rewrite Eg. destruct (i_pred _ _ _ I u v Hv He); auto. right. apply in_or_app. auto.
  - rewrite map_app. apply in_order_snoc; [apply I|]. cbn [members map]. intros v u [<-|[]] He. destruct (edge_before _ _ _ _ El He) as [Hu Hp]. destruct (reads x Hx Kx) as [Hr Ho]. rewrite Ho, app_nil_r in Hu.
    apply in_or_app. left. destruct (ids_prefix _ _ _ _ I Hp) as [Ht|[Hm|[]]]; [|exact Hm]. exfalso. eapply Nt; eauto.
  - intros u v [].
  - intros i Hi. apply in_app_or in Hi. destruct Hi as [Hi|[<-|[]]]; [apply (i_items _ _ _ I); auto|]. exists x. auto.
  - intros p xv q u Elx Hok Hu He Hin. rewrite Eg in Hin. cbn [s_items s_tracker] in *. destruct (Nat.eq_dec (n_id xv) (n_id x)) as [Ex|Ex].
    + exfalso. assert (xv = x) by (apply id_unique; auto; rewrite Elx; apply in_or_app; right; now left). subst. congruence.
    + assert (Hin' : In (n_id xv) (tids s ++ emitted s ++ [])).
      { unfold tids in *. cbn [s_tracker] in Hin. rewrite !in_app_iff in *. cbn [In] in *. intuition congruence. }
      destruct (i_join _ _ _ I p xv q u Elx Hok Hu He Hin') as [Hs|[(j & h & H1 & H2 & H3)|[H1|(j & h & H1 & H2 & H3)]]]; auto.
      * right. left. exists j, h. split; [apply in_or_app; auto|auto].
      * right. right. right. exists j, h. split; [apply in_or_app; auto|auto].
Qed.
Lemma record_inv a x b s : l = a ++ x :: b -> inv a s [] -> readers (a ++ [x]) s -> n_ok x = false ->
  inv (a ++ [x]) {| s_tracker := record_node (s_tracker s) (n_id x) (n_in x ++ n_order x); s_items := s_items s; s_reg := s_reg s |} [].
Proof.
  intros El I R Kx. assert (Hx : In x l) by (rewrite El; apply in_or_app; right; now left).
  assert (ND := nodup_prefix (a ++ [x]) b). rewrite <- app_assoc in ND. specialize (ND El). rewrite map_app in ND. cbn [map] in ND.
  assert (Nx : ~ In (n_id x) (map n_id a)) by (intros H; eapply nodup_app_disj; [exact ND|exact H|now left]).
  assert (Nt : ~ tracked (s_tracker s) (n_id x)) by (intros H; apply Nx; eapply Permutation_in; [apply I|apply in_or_app; left; exact H]).
  destruct (record_ok (n_id x) (n_in x ++ n_order x) (s_tracker s) (i_tr _ _ _ I) Nt) as (K & Em & S1 & S2 & S3). set (t' := record_node _ _ _) in *.
  assert (Tr : forall v, tracked t' v <-> v = n_id x \/ tracked (s_tracker s) v) by (intros v; unfold tracked; rewrite Em; cbn; intuition).
  split; cbn [s_tracker s_items s_reg]; auto; try apply I.
  - unfold tids. cbn [s_tracker]. rewrite Em, map_app. cbn [map]. change (emitted _) with (emitted s). rewrite <- app_comm_cons. rewrite (Permutation_app_comm (map n_id a)). cbn [app]. constructor. apply I.
  - intros y Hy. apply in_app_or in Hy. destruct Hy as [Hy|[<-|[]]]; auto. apply (i_prefix _ _ _ I). auto.
  - intros u v Hv He. change (emitted _) with (emitted s). apply Tr in Hv. destruct Hv as [->|Hv].
    + destruct (edge_before _ _ _ _ El He) as [Hu Hp]. destruct (ids_prefix _ _ _ _ I Hp) as [Ht|[Hm|[]]]; auto.
    + destruct (i_pred _ _ _ I u v Hv He); auto.
  - intros u Hu. unfold tids in Hu. cbn [s_tracker] in Hu. rewrite Em in Hu. rewrite app_nil_r in Hu. destruct Hu as [<-|Hu]; [exists x; auto|]. apply (i_uns _ _ _ I). apply in_or_app. auto.
  - intros u v Huv. set (Rr := fun u v => same t' u v /\ (exists g, (forall m, In m g -> same t' u m) /\ linked l g u v)).
    enough (H : Rr u v) by apply H. revert u v Huv. apply (S3 Rr).
    + intros u v Huv. split; auto. destruct (i_link _ _ _ I u v Huv) as (g & Hg & HL). exists g. split; auto.
    + assert (Hs : same t' (n_id x) (n_id x)) by (apply same_refl; apply Tr; auto). split; auto. exists [n_id x]. split; [intros m [<-|[]]; auto|]. constructor. now left.
    + intros u v [Hs (g & Hg & HL)]. split; [apply same_sym; auto|]. exists g. split; [|apply linked_sym; auto]. intros m Hm. apply same_trans with u; auto. apply same_sym; auto.
    + intros u v w [Hs (g & Hg & HL)] [Hs' (h & Hh & HL')]. split; [apply same_trans with v; auto|]. exists (g ++ h). split.
      * intros m Hm. apply in_app_or in Hm. destruct Hm as [Hm|Hm]; auto. apply same_trans with v; auto.
      * apply linked_trans with v; [apply (linked_mono l g)|apply (linked_mono l h)]; auto; intros m Hm; apply in_or_app; auto.
    + intros m Hm Hne Ht. assert (Hs := S2 m Hm Ht). split; auto. exists [m; n_id x]. split.
      * intros k [<-|[<-|[]]]; auto. apply same_refl. apply Tr. auto.
      * econstructor; [constructor; now left|right; now left|]. left. exists x. auto.
  - intros p xv q u Elx Hok Hu He Hin. unfold tids in Hin. cbn [s_tracker s_items] in *. rewrite Em in Hin. change (emitted _) with (emitted s) in Hin.
    destruct (Nat.eq_dec (n_id xv) (n_id x)) as [Ex|Ex].
    + assert (xv = x) by (apply id_unique; auto; rewrite Elx; apply in_or_app; right; now left). subst xv.
      assert (Ep : p = a).
      { assert (Hk : NoDup (map n_id l)) by apply top. clear -El Elx Hk. rewrite El in Elx, Hk. clear El. revert p Elx. induction a as [|y a IH]; intros [|z p] E; cbn in *; auto.
        - injection E as -> E. exfalso. apply NoDup_cons_iff in Hk. apply Hk. rewrite E. rewrite map_app. apply in_or_app. right. now left.
        - injection E as -> E. exfalso. apply NoDup_cons_iff in Hk. apply Hk. rewrite map_app. apply in_or_app. right. now left.
        - injection E as -> E. f_equal. apply IH; auto. apply NoDup_cons_iff in Hk. apply Hk. }
      subst p. destruct (edge_before _ _ _ _ El He) as [Hn Hp]. destruct (ids_prefix _ _ _ _ I Hp) as [Ht|[Hm|[]]]; auto.
      apply emitted_item in Hm. destruct Hm as (i & Hi & Hm). assert (Ki := i_items _ _ _ I i Hi). destruct i as [n|i g]; cbn [members item_ok] in *.
      * destruct Hm as [->|[]]. exfalso. eapply supported_not; eauto.
      * right. right. right. exists i, g. split; auto. split; auto. apply (R i g Hi).
    + destruct Hin as [Hin|Hin]; [congruence|]. destruct (i_join _ _ _ I p xv q u Elx Hok Hu He Hin) as [Hs|[H1|[H1|H1]]]; auto.
Qed.
Lemma readers_mono p q s : incl p q -> readers p s -> readers q s.
Proof. intros H R i g Hi. destruct (R i g Hi) as (x & w & H1 & H2 & H3). exists x, w. auto. Qed.
Lemma run_inv b : forall a s, l = a ++ b -> inv a s [] -> readers a s ->
  match run_encoder l registers s b with Some s' => inv l s' [] /\ readers l s' | None => blocked end.
Proof.
  induction b as [|x b IH]; intros a s El I R; cbn [run_encoder].
  - rewrite app_nil_r in El. subst a. auto.
  - unfold try_encode_node. assert (Hx : In x l) by (rewrite El; apply in_or_app; right; now left).
    assert (Ra : readers (a ++ [x]) s) by (eapply readers_mono; [|exact R]; intros z; rewrite in_app_iff; auto).
    assert (H := read_all_inv a (x :: b) x (a ++ [x]) (n_reads x) s El Hx ltac:(apply in_or_app; right; now left) (incl_refl _) I Ra).
    destruct (read_all l registers s (n_reads x)) as [s1|]; auto. destruct H as (I1 & R1 & Tr & Nt).
    assert (El' : l = (a ++ [x]) ++ b) by (rewrite <- app_assoc; exact El).
    destruct (n_ok x) eqn:Kx.
    + apply (IH (a ++ [x])); auto; [eapply command_inv; eauto|]. intros i g Hi. cbn [s_items] in Hi. apply in_app_or in Hi. destruct Hi as [Hi|[Hi|[]]]; [|discriminate]. apply (R1 i g Hi).
    + apply (IH (a ++ [x])); auto. eapply record_inv; eauto.
Qed.

(** ** The end of the encoding *)
Variable choose : list (nat * nat) -> nat.
Lemma choose_tracked t x k : t_nodes t = x :: k -> tracked t (fst (nth (choose (x :: k)) (x :: k) x)).
Proof. intros E. unfold tracked. rewrite E. apply in_map. destruct (nth_in_or_default (choose (x :: k)) (x :: k) x) as [H|H]; auto. rewrite H. now left. Qed.
Lemma finish_inv fuel : forall s extra, inv l s extra -> (forall g, In g extra -> True) -> length (t_nodes (s_tracker s)) <= fuel ->
  exists s' extra', finish_loop l registers choose fuel s extra = Some (s', extra') /\ inv l s' extra' /\ t_nodes (s_tracker s') = [] /\
    (forall P : nat -> Prop, (forall u, In u extra -> P u) -> (forall g, registers g = false -> (forall u, In u g -> unsupported l u) -> (forall u v, In u g -> In v g -> linked l g u v) -> forall u, In u g -> P u) -> forall u, In u extra' -> P u).
Proof.
  induction fuel as [|fuel IH]; intros s extra I _ L; cbn [finish_loop]; destruct (t_nodes (s_tracker s)) as [|x k] eqn:En; try (cbn in L; lia).
  1,2: exists s, extra; auto.
  set (u := fst (nth (choose (x :: k)) (x :: k) x)). assert (Tu : tracked (s_tracker s) u) by (apply choose_tracked; auto).
  destruct (get_wire_values l registers (depth s) s u) as [s1 b] eqn:E. unfold depth in E.
  destruct (gwv l [] _ _ _ _ _ _ (eq_sym (app_nil_r l)) I E) as [(N & _)|(g & t & i & r & Ex & Er & -> & ->)]; [contradiction|]. rewrite Ex.
  destruct (class_facts _ _ _ _ _ _ I Ex) as (Hu & Hg & Lk & _ & _).
  assert (Lt : length (t_nodes t) <= fuel) by (destruct (extract_some _ _ _ _ (i_tr _ _ _ I) Ex) as (_ & _ & _ & _ & _ & _ & Q); rewrite En in Q; cbn [length] in *; lia).
  destruct (registers g) eqn:Rg.
  - apply IH; auto. eapply emit_inv; eauto. symmetry. apply app_nil_r.
  - destruct (IH {| s_tracker := t; s_items := s_items s ++ []; s_reg := r |} (extra ++ g)) as (s' & e' & H1 & H2 & H3 & H4); auto.
    + eapply extra_inv; eauto. symmetry. apply app_nil_r.
    + exists s', e'. split; auto. split; auto. split; auto. intros P P1 P2. apply H4; auto. intros w Hw. apply in_app_or in Hw. destruct Hw; eauto.
Qed.
Lemma inv_start id : inv [] {| s_tracker := new_tracker; s_items := []; s_reg := new_registry id |} [].
Proof.
  split; cbn; try tauto.
  - split; cbn; try tauto; [constructor|intros; lia].
  - constructor.
  - intros ? [].
  - apply in_order_nil.
  - apply reg_new.
  - intros u v (c & d & [] & _).
  - intros p xv q u _ _ _ _ [].
Qed.

(** What an encoding gives. *)
Lemma encode_facts id : match encode l registers choose id with
  | None => blocked
  | Some e => exists s, inv l s (extra_nodes e) /\ t_nodes (s_tracker s) = [] /\ s_items s = e_items e /\ reg_ok (e_reg e) /\ incl (r_graphs (s_reg s)) (r_graphs (e_reg e)) /\
      (forall u, In u (extra_nodes e) -> exists g, In u g /\ registers g = false /\ (forall v, In v g -> unsupported l v) /\ (forall v w, In v g -> In w g -> linked l g v w))
  end.
Proof.
  unfold encode. assert (H := run_inv l [] _ eq_refl (inv_start id) ltac:(intros i g [])). destruct (run_encoder l registers _ l) as [s|]; auto. destruct H as [I R].
  unfold finish. destruct (finish_inv (depth s) s [] I ltac:(auto) ltac:(unfold depth; lia)) as (s' & extra & -> & I' & En & Ex).
  specialize (Ex (fun u => exists g, In u g /\ registers g = false /\ (forall v, In v g -> unsupported l v) /\ (forall v w, In v g -> In w g -> linked l g v w)) ltac:(intros ? []) ltac:(intros g H1 H2 H3 u Hu; exists g; auto)). destruct extra as [|u extra].
  - exists s'. cbn. split; auto. split; auto. split; auto. split; [apply I'|]. split; [intros x; auto|auto].
  - destruct (register (s_reg s') (u :: extra)) as [i r] eqn:Er. destruct (reg_register _ _ _ _ (i_reg _ _ _ I') Er) as (Rk & Rin & Rinc & _). exists s'. cbn. auto 10.
Qed.
End Run.
