(** The command iterator visits what is needed, once and in order. *)
From Coq Require Import List Bool Arith Lia.
From Verif Require Import CmdSpec CmdModel.
Import ListNotations.

Definition cnt (c : counts) (n : nat) : nat := match get c n with Some k => k | None => 0 end.
Definition good (c : counts) : Prop := forall n k, get c n = Some k -> 0 < k.
Notation occ := (count_occ Nat.eq_dec).
Lemma NoDup_app_one : forall (A : Type) (l : list A) x, NoDup l -> ~ In x l -> NoDup (l ++ [x]).
Proof. intros A l x N H. induction N as [|y l Ny N IH]; simpl; [repeat constructor; intros []|]. constructor; [|apply IH; intro; apply H; right; assumption]. rewrite in_app_iff. intros [K|[->|[]]]; [contradiction|]. apply H. left. reflexivity. Qed.
Lemma get_del : forall c i j, get (del c i) j = if Nat.eqb i j then None else get c j.
Proof.
  induction c as [|[k x] c IH]; intros i j; simpl; [destruct (Nat.eqb i j); reflexivity|]. destruct (Nat.eqb_spec k i) as [->|D]; simpl; rewrite IH.
  - destruct (Nat.eqb i j) eqn:E; reflexivity.
  - destruct (Nat.eqb_spec i j) as [->|]; [|reflexivity]. destruct (Nat.eqb_spec k j); [congruence|reflexivity].
Qed.
Lemma get_put : forall c i x j, get (put c i x) j = if Nat.eqb i j then Some x else get c j.
Proof. intros c i x j. unfold put. simpl. rewrite get_del. destruct (Nat.eqb i j); reflexivity. Qed.
Lemma incr_ok : forall l c, good c -> good (fold_left incr l c) /\ forall n, cnt (fold_left incr l c) n = cnt c n + occ l n.
Proof.
  induction l as [|x l IH]; intros c G; simpl; [split; [assumption|intro; lia]|].
  assert (G' : good (incr c x)). { intros n k E. unfold incr in E. rewrite get_put in E. destruct (Nat.eqb x n); [injection E as <-; lia|eauto]. }
  destruct (IH _ G') as [A B]. split; [assumption|]. intro n. rewrite B. unfold cnt at 1. unfold incr. rewrite get_put. unfold cnt. destruct (Nat.eqb_spec x n) as [->|D]; destruct (Nat.eq_dec _ n); try congruence; destruct (get c n); lia.
Qed.
Lemma decr_none : forall l, fold_left decr l None = None.
Proof. induction l; simpl; auto. Qed.
Lemma decr_ok : forall l c, good c -> (forall n, occ l n <= cnt c n) -> exists c', fold_left decr l (Some c) = Some c' /\ good c' /\ forall n, cnt c' n = cnt c n - occ l n.
Proof.
  induction l as [|x l IH]; intros c G L; simpl; [exists c; repeat split; [assumption|intro; lia]|].
  pose proof (L x) as Lx. simpl in Lx. destruct (Nat.eq_dec x x) as [_|]; [|congruence]. unfold cnt in Lx. destruct (get c x) as [k|] eqn:E; [|lia].
  set (c1 := if Nat.eqb (k - 1) 0 then del c x else put c x (k - 1)).
  assert (Q : (if Nat.eqb (k - 1) 0 then Some (del c x) else Some (put c x (k - 1))) = Some c1) by (unfold c1; destruct (Nat.eqb (k - 1) 0); reflexivity). rewrite Q.
  assert (C1 : forall n, cnt c1 n = if Nat.eqb x n then k - 1 else cnt c n).
  { intro n. unfold c1, cnt. destruct (Nat.eqb_spec (k - 1) 0) as [Z|Z]; rewrite ?get_del, ?get_put; destruct (Nat.eqb_spec x n); auto. }
  assert (G1 : good c1). { intros n j En. unfold c1 in En. destruct (Nat.eqb_spec (k - 1) 0) as [Z|Z]; rewrite ?get_del, ?get_put in En; destruct (Nat.eqb x n); try discriminate; eauto. injection En as <-. lia. }
  destruct (IH c1 G1) as (c' & A & B & C).
  - intro n. rewrite C1. specialize (L n). simpl in L. destruct (Nat.eqb_spec x n) as [<-|D]; destruct (Nat.eq_dec x _); try congruence; unfold cnt in *; rewrite ?E in *; lia.
  - exists c'. split; [assumption|]. split; [assumption|]. intro n. rewrite C, C1. simpl. destruct (Nat.eqb_spec x n) as [<-|D]; destruct (Nat.eq_dec x _); try congruence; unfold cnt; rewrite ?E; lia.
Qed.

Section Order.
Variables (g outer : list node) (order : list nat).
Hypothesis N : NoDup (map nid (g ++ outer)).
Hypothesis Or : order_of g order.
Notation find_node := (find_node g).
Notation output_neighbours := (output_neighbours g outer).

Lemma Ng : NoDup (map nid g).
Proof. pose proof N as M. rewrite map_app in M. clear - M. induction (map nid g) as [|x l IH]; [constructor|]. inversion M; subst. constructor; [|auto]. intro. apply H1. apply in_or_app. auto. Qed.
Lemma find_unique : forall (l : list node) m, NoDup (map nid l) -> In m l -> find (fun x => Nat.eqb (nid x) (nid m)) l = Some m.
Proof.
  induction l as [|x l IH]; intros m Nl H; [destruct H|]. simpl in *. inversion Nl as [|? ? Nx Nk]; subst. destruct H as [->|H]; [rewrite Nat.eqb_refl; reflexivity|].
  destruct (Nat.eqb_spec (nid x) (nid m)) as [E|]; [|auto]. exfalso. apply Nx. rewrite E. apply in_map. assumption.
Qed.
Lemma find_g : forall m, In m g -> find_node (nid m) = Some m.
Proof. intros m H. apply find_unique; [apply Ng|assumption]. Qed.
Lemma find_in : forall n m, find_node n = Some m -> In m g /\ nid m = n.
Proof. intros n m F. apply find_some in F. destruct F as [H E]. apply Nat.eqb_eq in E. auto. Qed.
Lemma same_node : forall a b, In a g -> In b g -> nid a = nid b -> a = b.
Proof. intros a b A B E. apply find_g in A. apply find_g in B. rewrite E in A. congruence. Qed.
Lemma edges_count : forall m c, In m g -> occ (output_neighbours c) (nid m) = occ (preds m) c.
Proof.
  intros m c Hm. assert (Hm' : In m (g ++ outer)) by (apply in_or_app; auto). unfold CmdModel.output_neighbours. clear Hm. revert N Hm'. induction (g ++ outer) as [|x l IH]; intros Nl H; [destruct H|]. simpl. rewrite count_occ_app. simpl in Nl. inversion Nl as [|? ? Nx Nk]; subst.
  assert (Z : forall x : node, occ (map (fun _ => nid x) (filter (Nat.eqb c) (preds x))) (nid m) = if Nat.eqb (nid x) (nid m) then occ (preds x) c else 0).
  { intro y. induction (preds y) as [|p ps IHp]; simpl; [destruct (Nat.eqb _ _); reflexivity|]. destruct (Nat.eqb_spec c p) as [->|D]; simpl.
    - destruct (Nat.eq_dec (nid y) (nid m)) as [E|E]; destruct (Nat.eqb_spec (nid y) (nid m)); try congruence; rewrite IHp; destruct (Nat.eq_dec p p); congruence.
    - rewrite IHp. destruct (Nat.eqb (nid y) (nid m)); [|reflexivity]. destruct (Nat.eq_dec p c); congruence. }
  rewrite Z. destruct H as [->|H].
  - rewrite Nat.eqb_refl. assert (K : occ (flat_map (fun m0 => map (fun _ => nid m0) (filter (Nat.eqb c) (preds m0))) l) (nid m) = 0).
    { apply count_occ_not_In. intro K. apply in_flat_map in K. destruct K as (y & Hy & K). apply in_map_iff in K. destruct K as (_ & E & _). apply Nx. rewrite <- E. apply in_map. assumption. }
    rewrite K. lia.
  - destruct (Nat.eqb_spec (nid x) (nid m)) as [E|E]; [exfalso; apply Nx; rewrite E; apply in_map; assumption|]. apply IH; assumption.
Qed.
Definition isC (c : nat) : Prop := exists m, In m g /\ nid m = c /\ is_const m = true.
Definition total (l : list nat) (n : nat) : nat := list_sum (map (fun c => occ (output_neighbours c) n) l).
Definition todo (st : state) : list nat := match delayed_node st with Some d => [d] | None => [] end ++ rest st.

Record Inv (pp em : list nat) (st : state) : Prop := {
  I_order : order = pp ++ todo st;
  I_nodup : NoDup (delayed st);
  I_delayed : forall c, In c (delayed st) <-> In c pp /\ isC c /\ ~ In c em;
  I_good : good (consumers st);
  I_count : forall n, cnt (consumers st) n = total (delayed st) n;
  I_ops : forall n, In n pp -> ~ isC n -> In n em;
  I_em : NoDup em;
  I_incl : incl em pp;
  I_closed : forall l1 n l2 m, em = l1 ++ nid n :: l2 -> In n g -> In m g -> In (nid m) (preds n) -> In (nid m) l1;
  I_needed : forall n, In n em -> needed g n }.

Lemma total_pos : forall l n, 0 < total l n -> exists c, In c l /\ 0 < occ (output_neighbours c) n.
Proof.
  induction l as [|c l IH]; intros n H; unfold total in *; simpl in *; [lia|]. destruct (Nat.eq_dec (occ (output_neighbours c) n) 0) as [E|E]; [|exists c; split; [auto|lia]].
  destruct (IH n) as (d & Hd & K); [lia|]. exists d. auto.
Qed.
Lemma total_in : forall l n c, In c l -> occ (output_neighbours c) n <= total l n.
Proof. induction l as [|d l IH]; intros n c H; [destruct H|]. unfold total in *. simpl. destruct H as [->|H]; [lia|]. specialize (IH n c H). lia. Qed.
Lemma total_remove : forall l d n, NoDup l -> In d l -> total (filter (fun k => negb (Nat.eqb k d)) l) n = total l n - occ (output_neighbours d) n.
Proof.
  unfold total. induction l as [|x l IH]; intros d n Nl H; [destruct H|]. inversion Nl as [|? ? Nx Nk]; subst. simpl. destruct (Nat.eqb_spec x d) as [->|D]; simpl.
  - assert (E : filter (fun k => negb (Nat.eqb k d)) l = l). { clear - Nx. induction l as [|y l IH]; [reflexivity|]. simpl in *. destruct (Nat.eqb_spec y d) as [->|]; simpl; [exfalso; auto|]. rewrite IH; auto. }
    rewrite E. lia.
  - destruct H as [->|H]; [congruence|]. rewrite (IH d n Nk H). pose proof (total_in l n d H) as T. unfold total in T. lia.
Qed.
Lemma get_cnt : forall c n, good c -> (get c n = None <-> cnt c n = 0).
Proof. intros c n G. unfold cnt. specialize (G n). destruct (get c n) as [k|]; split; intro E; try discriminate; try reflexivity. subst k. specialize (G 0 eq_refl). lia. Qed.

Lemma next_delayed_ok : forall pp em st, Inv pp em st -> forall fuel n l1 l2, In n g -> order = l1 ++ nid n :: l2 -> length l1 < fuel -> 0 < cnt (consumers st) (nid n) -> needed g (nid n) ->
  exists d, next_delayed g fuel st (nid n) = Some d /\ In d (delayed st) /\ get (consumers st) d = None /\ needed g d.
Proof.
  intros pp em st I. induction fuel as [|fuel IH]; intros n l1 l2 Hn E L P Nd; [lia|]. simpl. rewrite (find_g n Hn).
  rewrite (I_count _ _ _ I) in P. apply total_pos in P. destruct P as (c & Hc & Pc). rewrite (edges_count n c Hn) in Pc. apply count_occ_In in Pc.
  destruct (find _ (preds n)) as [p|] eqn:F.
  - apply find_some in F. destruct F as [Hp F]. apply existsb_exists in F. destruct F as (x & Hx & Ex). apply Nat.eqb_eq in Ex. subst x.
    pose proof Hx as Hx'. apply (I_delayed _ _ _ I) in Hx'. destruct Hx' as (Hpp & (m & Hm & Em & Cm) & _). subst p.
    assert (Nm : needed g (nid m)) by (exact (Needed_const g m n Hm Hn Hp Nd)).
    destruct (get (consumers st) (nid m)) as [k|] eqn:Gp; [|exists (nid m); auto].
    destruct Or as (_ & _ & O3). pose proof (O3 l1 n l2 m E Hn Hm Hp) as Hl. apply in_split in Hl. destruct Hl as (a & b & El). rewrite El in E, L. rewrite app_length in L. simpl in L. rewrite <- app_assoc in E. simpl in E.
    apply (IH m a (b ++ nid n :: l2)); [assumption|assumption|lia| |assumption]. unfold cnt. rewrite Gp. apply (I_good _ _ _ I) in Gp. assumption.
  - exfalso. apply (find_none _ _ F) in Pc. assert (existsb (Nat.eqb c) (delayed st) = true) by (apply existsb_exists; exists c; split; [assumption|apply Nat.eqb_refl]). congruence.
Qed.
Lemma order_len : length order = length g.
Proof.
  destruct Or as (O1 & O2 & _). rewrite <- (map_length nid g). apply Nat.le_antisymm; apply NoDup_incl_length; try assumption; try apply Ng; intros x Hx; apply O2; assumption.
Qed.
Lemma dec_isC : forall n m, In m g -> nid m = n -> (isC n <-> is_const m = true).
Proof. intros n m Hm E. split; [intros (m' & Hm' & E' & C); rewrite <- (same_node m' m); [assumption|assumption|assumption|congruence]|intro C; exists m; auto]. Qed.

Lemma take_ok : forall pp em st, Inv pp em st -> match take st with None => todo st = [] | Some (n, st') => todo st = n :: todo st' /\ delayed st' = delayed st /\ consumers st' = consumers st /\ rest st' = todo st' end.
Proof. intros pp em st I. unfold take, todo. destruct (delayed_node st); simpl; [auto|]. destruct (rest st); simpl; auto. Qed.
Lemma take_rest : forall st n st', take st = Some (n, st') -> delayed_node st' = None.
Proof. intros st n st' E. unfold take in E. destruct (delayed_node st); [|destruct (rest st); [discriminate|]]; injection E as <- <-; reflexivity. Qed.

Lemma next_ok : forall fuel pp em st, Inv pp em st -> length (todo st) < fuel ->
  (exists st' pp', next_node g outer fuel st = Some (None, st') /\ Inv pp' em st' /\ todo st' = []) \/
  (exists n st' pp', next_node g outer fuel st = Some (Some n, st') /\ Inv pp' (em ++ [n]) st').
Proof.
  induction fuel as [|fuel IH]; intros pp em st I L; [lia|]. simpl. pose proof (take_ok pp em st I) as T. destruct (take st) as [[n st1]|] eqn:Et.
  - pose proof (take_rest _ _ _ Et) as Dn. destruct T as (T1 & T2 & T3 & T4). destruct st1 as [r dl co dn]. simpl in *. subst dn dl co. unfold todo in T1, T4. simpl in T1, T4. fold (todo st) in T1.
    assert (Eo : order = pp ++ n :: r) by (rewrite (I_order _ _ _ I), T1; reflexivity).
    destruct Or as (O1 & O2 & O3). assert (Hn : In n (map nid g)) by (apply O2; rewrite Eo; apply in_or_app; right; left; reflexivity).
    apply in_map_iff in Hn. destruct Hn as (m & Em & Hm). subst n. unfold handle. rewrite (find_g m Hm). simpl.
    assert (Npp : ~ In (nid m) pp). { rewrite Eo in O1. apply NoDup_remove_2 in O1. intro K. apply O1. apply in_or_app. auto. }
    assert (Nem : ~ In (nid m) em) by (intro K; apply Npp, (I_incl _ _ _ I), K).
    destruct (is_const m) eqn:Cm.
    + (* a constant *)
      set (st2 := {| rest := r; delayed := nid m :: delayed st; consumers := fold_left incr (output_neighbours (nid m)) (consumers st); delayed_node := None |}).
      destruct (incr_ok (output_neighbours (nid m)) (consumers st) (I_good _ _ _ I)) as [G1 C1].
      assert (I2 : Inv (pp ++ [nid m]) em st2).
      { constructor; simpl.
        - unfold todo. simpl. rewrite <- app_assoc. exact Eo.
        - constructor; [|apply I]. intro K. apply (I_delayed _ _ _ I) in K. tauto.
        - intro c. rewrite in_app_iff, (I_delayed _ _ _ I). simpl. split.
          + intros [<-|K]; [|tauto]. split; [auto|]. split; [exists m; auto|assumption].
          + intros ([K|[K|[]]] & A & B); [right; tauto|left; assumption].
        - exact G1.
        - intro x. rewrite C1, (I_count _ _ _ I). unfold total. simpl. lia.
        - intros x Hx Nx. apply in_app_or in Hx. destruct Hx as [Hx|[<-|[]]]; [apply (I_ops _ _ _ I); assumption|]. exfalso. apply Nx. exists m. auto.
        - apply I.
        - intros x Hx. apply in_or_app. left. apply (I_incl _ _ _ I), Hx.
        - apply I.
        - apply I. }
      apply (IH (pp ++ [nid m]) em st2 I2). unfold todo. simpl. rewrite T1 in L. simpl in L. lia.
    + assert (NC : ~ isC (nid m)) by (rewrite (dec_isC _ m Hm eq_refl), Cm; discriminate). assert (Nd : needed g (nid m)) by (apply Needed_op; assumption).
      destruct (get (consumers st) (nid m)) as [k|] eqn:Gm.
      * (* something delayed comes first *)
        right. destruct (next_delayed_ok pp em st I (length g) m pp r Hm Eo) as (d & Ed & Hd & Gd & Nd').
        { rewrite <- order_len, Eo, app_length. simpl. lia. }
        { unfold cnt. rewrite Gm. apply (I_good _ _ _ I) in Gm. assumption. }
        { assumption. }
        assert (EQ : next_delayed g (length g) {| rest := r; delayed := delayed st; consumers := consumers st; delayed_node := None |} (nid m) = next_delayed g (length g) st (nid m)).
        { clear. generalize (length g) (nid m). induction n as [|n IH]; intro x; simpl; [reflexivity|]. destruct (find_node x); [|reflexivity]. destruct (find _ _); [|reflexivity]. destruct (get _ _); [apply IH|reflexivity]. }
        rewrite EQ, Ed.
        destruct (decr_ok (output_neighbours d) (consumers st) (I_good _ _ _ I)) as (c' & Ec & Gc & Cc).
        { intro x. rewrite (I_count _ _ _ I). apply total_in. assumption. }
        rewrite Ec. eexists d, _, pp. split; [reflexivity|].
        pose proof Hd as Hd'. apply (I_delayed _ _ _ I) in Hd'. destruct Hd' as (Pd & Cd & Ned).
        constructor; simpl.
        -- unfold todo. simpl. exact Eo.
        -- apply NoDup_filter. apply I.
        -- intro c. rewrite filter_In, (I_delayed _ _ _ I), in_app_iff, negb_true_iff, Nat.eqb_neq. simpl. split; [intros [(A & B & D) E]; repeat split; try tauto; intros [K|[K|[]]]; [tauto|congruence]|].
           intros (A & B & D). repeat split; try assumption; [tauto|]. intro E. apply D. right. left. congruence.
        -- exact Gc.
        -- intro x. rewrite Cc, (I_count _ _ _ I), total_remove; [reflexivity|apply I|assumption].
        -- intros x Hx Nx. apply in_or_app. left. apply (I_ops _ _ _ I); assumption.
        -- apply NoDup_app_one; [apply I|assumption].
        -- intros x Hx. apply in_app_or in Hx. destruct Hx as [Hx|[<-|[]]]; [apply (I_incl _ _ _ I), Hx|assumption].
        -- intros l1 x l2 y El Hx Hy Py. destruct l2 as [|z l2] using rev_ind.
           ++ apply app_inj_tail in El. destruct El as [<- Ex]. subst d. 
              (* all predecessors of the delayed constant were given *)
              assert (Yp : In (nid y) pp).
              { pose proof Pd as Pd'. apply in_split in Pd'. destruct Pd' as (a & b & Ea). assert (In (nid y) a). { apply (O3 a x (b ++ nid m :: r) y); try assumption. rewrite Eo, Ea, <- app_assoc. reflexivity. } rewrite Ea. apply in_or_app. auto. }
              destruct (is_const y) eqn:Cy.
              ** destruct (in_dec Nat.eq_dec (nid y) em) as [K|K]; [assumption|]. exfalso. assert (Dy : In (nid y) (delayed st)) by (apply (I_delayed _ _ _ I); split; [assumption|]; split; [exists y; auto|assumption]).
                 apply (get_cnt _ _ (I_good _ _ _ I)) in Gd. rewrite (I_count _ _ _ I) in Gd. pose proof (total_in (delayed st) (nid x) (nid y) Dy) as Z. rewrite (edges_count x (nid y) Hx) in Z. apply (count_occ_In Nat.eq_dec) in Py. lia.
              ** apply (I_ops _ _ _ I); [assumption|]. rewrite (dec_isC _ y Hy eq_refl), Cy. discriminate.
           ++ rewrite app_comm_cons, app_assoc in El. apply app_inj_tail in El. destruct El as [El _]. eapply (I_closed _ _ _ I); eauto.
        -- intros x Hx. apply in_app_or in Hx. destruct Hx as [Hx|[<-|[]]]; [apply (I_needed _ _ _ I), Hx|assumption].
      * (* the node itself *)
        right. eexists (nid m), _, (pp ++ [nid m]). split; [reflexivity|]. constructor; simpl.
        -- unfold todo. simpl. rewrite <- app_assoc. exact Eo.
        -- apply I.
        -- intro c. rewrite (I_delayed _ _ _ I), !in_app_iff. simpl. split.
           ++ intros (A & B & D). repeat split; try tauto. intros [K|[K|[]]]; [tauto|]. subst c. tauto.
           ++ intros ([A|[A|[]]] & B & D); [tauto|]. subst c. tauto.
        -- apply I.
        -- apply I.
        -- intros x Hx Nx. apply in_app_or in Hx. apply in_or_app. destruct Hx as [Hx|Hx]; [left; apply (I_ops _ _ _ I); assumption|right; assumption].
        -- apply NoDup_app_one; [apply I|assumption].
        -- intros x Hx. apply in_app_or in Hx. apply in_or_app. destruct Hx as [Hx|Hx]; [left; apply (I_incl _ _ _ I), Hx|right; assumption].
        -- intros l1 x l2 y El Hx Hy Py. destruct l2 as [|z l2] using rev_ind.
           ++ apply app_inj_tail in El. destruct El as [<- Ex]. assert (x = m) by (apply same_node; auto). subst x.
              assert (Yp : In (nid y) pp) by (apply (O3 pp m r y); assumption).
              destruct (is_const y) eqn:Cy.
              ** destruct (in_dec Nat.eq_dec (nid y) em) as [K|K]; [assumption|]. exfalso. assert (Dy : In (nid y) (delayed st)) by (apply (I_delayed _ _ _ I); split; [assumption|]; split; [exists y; auto|assumption]).
                 apply (get_cnt _ _ (I_good _ _ _ I)) in Gm. rewrite (I_count _ _ _ I) in Gm. pose proof (total_in (delayed st) (nid m) (nid y) Dy) as Z. rewrite (edges_count m (nid y) Hm) in Z. apply (count_occ_In Nat.eq_dec) in Py. lia.
              ** apply (I_ops _ _ _ I); [assumption|]. rewrite (dec_isC _ y Hy eq_refl), Cy. discriminate.
           ++ rewrite app_comm_cons, app_assoc in El. apply app_inj_tail in El. destruct El as [El _]. eapply (I_closed _ _ _ I); eauto.
        -- intros x Hx. apply in_app_or in Hx. destruct Hx as [Hx|[<-|[]]]; [apply (I_needed _ _ _ I), Hx|assumption].
  - left. exists st, pp. auto.
Qed.

Lemma all_ok : forall fuel pp em st, Inv pp em st -> length order - length em < fuel ->
  exists l pp' st', all_nodes g outer fuel st = Some l /\ Inv pp' (em ++ l) st' /\ todo st' = [].
Proof.
  induction fuel as [|fuel IH]; intros pp em st I L; [lia|]. cbn [all_nodes].
  assert (Lt : length (todo st) < S (S (length (rest st)))). { unfold todo. destruct (delayed_node st); simpl; lia. }
  destruct (next_ok _ pp em st I Lt) as [(st' & pp' & -> & I' & T)|(n & st' & pp' & -> & I')].
  - exists [], pp', st'. rewrite app_nil_r. auto.
  - assert (Le : length (em ++ [n]) <= length order).
    { apply NoDup_incl_length; [apply I'|]. intros x Hx. rewrite (I_order _ _ _ I'). apply in_or_app. left. apply (I_incl _ _ _ I'), Hx. }
    rewrite app_length in Le. simpl in Le.
    destruct (IH pp' (em ++ [n]) st' I') as (l & pp2 & st2 & -> & I2 & T); [rewrite app_length; simpl; lia|]. exists (n :: l), pp2, st2. rewrite <- app_assoc in I2. auto.
Qed.
Theorem nodes_ok : exists l, all_nodes g outer (S (2 * length order)) {| rest := order; delayed := []; consumers := []; delayed_node := None |} = Some l /\
  NoDup l /\ (forall n, In n l <-> needed g n) /\
  (forall l1 n l2 m, l = l1 ++ nid n :: l2 -> In n g -> In m g -> In (nid m) (preds n) -> In (nid m) l1).
Proof.
  assert (I0 : Inv [] [] {| rest := order; delayed := []; consumers := []; delayed_node := None |}).
  { constructor; simpl.
    - reflexivity.
    - constructor.
    - intro c. tauto.
    - intros n k E. discriminate.
    - reflexivity.
    - intros n [].
    - constructor.
    - intros x [].
    - intros l1 n l2 m E. destruct l1; discriminate.
    - intros n []. }
  destruct (all_ok (S (2 * length order)) [] [] _ I0) as (l & pp & st & E & I & T); [simpl; lia|]. simpl in I. exists l. split; [assumption|]. split; [apply I|]. split; [|apply I].
  intro n. split; [apply (I_needed _ _ _ I)|]. assert (Eo : order = pp) by (rewrite (I_order _ _ _ I), T, app_nil_r; reflexivity).
  intro Nd. induction Nd as [m Hm Cm|c m Hc Hm P Nd IH].
  - apply (I_ops _ _ _ I); [rewrite <- Eo; apply Or; apply in_map; assumption|]. rewrite (dec_isC _ m Hm eq_refl), Cm. discriminate.
  - apply in_split in IH. destruct IH as (l1 & l2 & El). rewrite El. apply in_or_app. left. eapply (I_closed _ _ _ I); eauto.
Qed.
End Order.
