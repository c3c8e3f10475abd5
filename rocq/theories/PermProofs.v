(** Proofs about register names and the order of outputs. *)
From Coq Require Import List Bool Arith ZArith String Lia Sorted.
From Verif Require Import PermModel.
Import ListNotations.
Notation len := List.length.

(** ** The generator *)
Lemma as_u16_range : forall i, (0 <= as_u16 i < u16)%Z.
Proof. intros i. unfold as_u16, u16. apply Z.mod_pos_bound. lia. Qed.
Lemma as_u16_id : forall i, (0 <= i < u16)%Z -> as_u16 i = i.
Proof. intros i H. unfold as_u16. apply Z.mod_small. exact H. Qed.

Lemma last_unit_spec : forall name l last o, last_unit name l last = Some o -> (forall x, last = Some x -> (0 <= x < u16)%Z) ->
  (forall x, o = Some x -> (0 <= x < u16)%Z) /\ (forall x, last = Some x -> exists y, o = Some y /\ (x <= y)%Z) /\
  (forall r i rest, In r l -> rname r = name -> rindex r = i :: rest -> exists y, o = Some y /\ (as_u16 i <= y)%Z) /\
  (forall r, In r l -> rname r = name -> rindex r <> []).
Proof.
  intros name. induction l as [|r l IH]; intros last o H B; simpl in H.
  - injection H as <-. split; [exact B|]. split; [intros x ->; exists x; split; [reflexivity|lia]|]. split; [intros r i rest []|intros r []].
  - destruct (string_dec (rname r) name) as [E|E].
    + destruct (rindex r) as [|i rest] eqn:Ri; [discriminate|]. assert (R := as_u16_range i). unfold u16 in *.
      destruct (IH _ _ H) as (A & A1 & A2 & A3).
      { intros x X. injection X as <-. destruct last as [x|]; [specialize (B x eq_refl); lia|lia]. }
      split; [exact A|]. split; [|split].
      * intros x ->. destruct (A1 _ eq_refl) as (y & Y & L). exists y. split; [exact Y|lia].
      * intros r' i' rest' [->|I] E' R'; [|eapply A2; eauto]. rewrite Ri in R'. injection R' as <- <-. destruct (A1 _ eq_refl) as (y & Y & L). exists y. split; [exact Y|lia].
      * intros r' [->|I] E'; [rewrite Ri; discriminate|eapply A3; eauto].
    + destruct (IH _ _ H B) as (A & A1 & A2 & A3). split; [exact A|]. split; [exact A1|]. split; [intros r' i' rest' [->|I] E' R'; [contradiction|eapply A2; eauto]|intros r' [->|I] E'; [contradiction|eapply A3; eauto]].
Qed.
Lemma last_unit_bound : forall name l last b, (forall r, In r l -> rname r = name -> exists i rest, rindex r = i :: rest /\ (0 <= i <= b)%Z) -> (b < u16)%Z -> (forall x, last = Some x -> (0 <= x <= b)%Z) ->
  exists o, last_unit name l last = Some o /\ (forall x, o = Some x -> (0 <= x <= b)%Z).
Proof.
  intros name. induction l as [|r l IH]; intros last b H Hb B; simpl; [exists last; auto|].
  destruct (string_dec (rname r) name) as [E|E]; [|apply IH; auto; intros; apply H; [right|]; auto].
  destruct (H r (or_introl eq_refl) E) as (i & rest & -> & Hi). apply IH; auto; [intros; apply H; [right|]; auto|].
  intros x X. injection X as <-. rewrite as_u16_id by lia. destruct last as [x|]; [specialize (B x eq_refl); lia|lia].
Qed.

Definition unit_of (name : string) (i : Z) : reg := {| rname := name; rindex := [i] |}.
Lemma nexts_spec : forall checked n g l, nexts checked g n = Some l -> checked = true -> (0 <= next_unit g < u16)%Z ->
  NoDup l /\ len l = n /\ forall r, In r l -> exists i, r = unit_of (register g) i /\ (next_unit g <= i < u16)%Z.
Proof.
  intros checked. induction n as [|n IH]; intros g l H Hc B; simpl in H.
  - injection H as <-. split; [constructor|]. split; [reflexivity|]. intros r [].
  - unfold next, succ_u16 in H. subst checked. destruct (Z.ltb (next_unit g + 1) u16) eqn:L; [|discriminate]. apply Z.ltb_lt in L.
    match type of H with match nexts true ?g' n with _ => _ end = _ => remember g' as g1 eqn:G end.
    destruct (nexts true g1 n) as [l'|] eqn:N; [|discriminate]. injection H as <-.
    destruct (IH _ _ N eq_refl) as (A & A1 & A2); [subst g1; simpl; lia|]. subst g1. simpl in A2. split; [|split].
    + constructor; [|exact A]. intros F. destruct (A2 _ F) as (i & E & Hi). unfold unit_of in E. injection E as E. lia.
    + simpl. lia.
    + intros r [<-|I]; [exists (next_unit g); split; [reflexivity|lia]|]. destruct (A2 _ I) as (i & E & Hi). exists i. split; [exact E|lia].
Qed.
Lemma nexts_works : forall checked n g, (0 <= next_unit g)%Z -> (next_unit g + Z.of_nat n < u16)%Z -> exists l, nexts checked g n = Some l /\ nexts true g n = Some l.
Proof.
  intros checked. induction n as [|n IH]; intros g P B; simpl; [exists []; auto|].
  unfold next, succ_u16. destruct (Z.ltb (next_unit g + 1) u16) eqn:L; [|apply Z.ltb_ge in L; lia].
  destruct (IH {| next_unit := next_unit g + 1; register := register g |}) as (l & A & A'); [simpl; lia|simpl; lia|]. rewrite A, A'. eexists. split; reflexivity.
Qed.
Lemma generator_spec : forall name l g, new_generator true name l = Some g -> register g = name /\ (0 <= next_unit g < u16)%Z /\
  forall r i, In r l -> r = unit_of name i -> (next_unit g <= i < u16)%Z -> False.
Proof.
  intros name l g H. unfold new_generator in H. destruct (last_unit name l None) as [o|] eqn:L; [|discriminate].
  destruct (last_unit_spec _ _ _ _ L ltac:(discriminate)) as (A & _ & A2 & _). destruct o as [x|].
  - unfold succ_u16 in H. destruct (Z.ltb (x + 1) u16) eqn:B; [|discriminate]. apply Z.ltb_lt in B. injection H as <-. simpl. specialize (A x eq_refl). split; [reflexivity|]. split; [lia|].
    intros r i I -> Hi. destruct (A2 _ i [] I eq_refl eq_refl) as (y & Y & Ly). injection Y as <-. rewrite as_u16_id in Ly by (unfold u16 in *; lia). lia.
  - injection H as <-. simpl. split; [reflexivity|]. split; [unfold u16; lia|]. intros r i I -> Hi. destruct (A2 _ i [] I eq_refl eq_refl) as (y & Y & _). discriminate.
Qed.
Lemma fresh_spec : forall name l n g rs, new_generator true name l = Some g -> nexts true g n = Some rs -> len rs = n /\ NoDup rs /\ forall r, In r rs -> ~ In r l.
Proof.
  intros name l n g rs G N. destruct (generator_spec _ _ _ G) as (A & B & C). destruct (nexts_spec _ _ _ _ N eq_refl B) as (D & E & F).
  split; [exact E|]. split; [exact D|]. intros r I J. destruct (F _ I) as (i & -> & Hi). eapply C; eauto. rewrite A. reflexivity.
Qed.
Lemma generator_works : forall checked name l n, (forall r, In r l -> rname r = name -> exists i rest, rindex r = i :: rest /\ (0 <= i)%Z /\ (i + Z.of_nat n + 1 < u16)%Z) -> (Z.of_nat n < u16)%Z ->
  exists g rs, new_generator checked name l = Some g /\ new_generator true name l = Some g /\ nexts checked g n = Some rs /\ nexts true g n = Some rs.
Proof.
  intros checked name l n H Hn. unfold u16 in Hn. destruct (last_unit_bound name l None (u16 - Z.of_nat n - 2)) as (o & L & B).
  - intros r I E. destruct (H r I E) as (i & rest & A & A1 & A2). exists i, rest. split; [exact A|lia].
  - lia.
  - discriminate.
  - unfold new_generator. rewrite L. destruct o as [x|].
    + specialize (B x eq_refl). unfold succ_u16. destruct (Z.ltb (x + 1) u16) eqn:Lt; [|apply Z.ltb_ge in Lt; lia].
      destruct (nexts_works checked n {| next_unit := x + 1; register := name |}) as (rs & A & A'); [simpl; lia|simpl; lia|]. eauto 8.
    + destruct (nexts_works checked n {| next_unit := 0; register := name |}) as (rs & A & A'); [simpl; lia|simpl; unfold u16; lia|]. eauto 8.
Qed.
(** All results are below 65536, so that there are at most so many. *)
Lemma nexts_range : forall checked n g l, nexts checked g n = Some l -> (0 <= next_unit g < u16)%Z -> forall r, In r l -> exists i, r = unit_of (register g) i /\ (0 <= i < u16)%Z.
Proof.
  intros checked. induction n as [|n IH]; intros g l H B r I; simpl in H; [injection H as <-; destruct I|].
  unfold next in H. destruct (succ_u16 checked (next_unit g)) as [m|] eqn:S; [|discriminate].
  assert (Bm : (0 <= m < u16)%Z). { unfold succ_u16 in S. destruct (Z.ltb _ _) eqn:L; [apply Z.ltb_lt in L; injection S as <-; lia|]. destruct checked; [discriminate|]. injection S as <-. unfold u16. lia. }
  destruct (nexts checked _ n) as [l'|] eqn:N; [|discriminate]. injection H as <-. destruct I as [<-|I]; [exists (next_unit g); split; [reflexivity|exact B]|].
  destruct (IH _ _ N Bm r I) as (i & E & Hi). exists i. split; [exact E|exact Hi].
Qed.
Lemma nexts_unchecked : forall n g, exists l, nexts false g n = Some l /\ len l = n.
Proof.
  induction n as [|n IH]; intros g; simpl; [exists []; auto|]. unfold next, succ_u16.
  destruct (Z.ltb _ _); [destruct (IH {| next_unit := next_unit g + 1; register := register g |}) as (l & A & B)|destruct (IH {| next_unit := 0; register := register g |}) as (l & A & B)];
    rewrite A; eexists; split; try reflexivity; simpl; lia.
Qed.

(** ** The encoder's permutation *)
Lemma extend_spec : forall rs seen, exists l, extend seen rs = seen ++ l /\ incl l rs.
Proof.
  induction rs as [|r rs IH]; intros seen; simpl; [exists []; rewrite app_nil_r; split; [reflexivity|intros x []]|].
  destruct (in_dec reg_dec r seen); [destruct (IH seen) as (l & A & B); exists l; split; [exact A|intros x Hx; right; auto]|].
  destruct (IH (seen ++ [r])) as (l & A & B). exists (r :: l). rewrite A, <- app_assoc. split; [reflexivity|]. intros x [->|I]; [left; auto|right; auto].
Qed.
Lemma position_spec : forall r l k, In r l -> NoDup l -> exists i, position r l k = Some (k + i) /\ nth_error l i = Some r.
Proof.
  intros r. induction l as [|x l IH]; intros k I N; [destruct I|]. inversion N; subst. simpl.
  destruct (in_dec reg_dec r l) as [J|J].
  - destruct (IH (S k) J H2) as (i & A & B). rewrite A. exists (S i). split; [f_equal; lia|exact B].
  - destruct I as [->|I]; [|contradiction]. assert (Q : forall m k', ~ In r m -> position r m k' = None).
    { clear. induction m as [|y m IH]; intros k' F; simpl; [reflexivity|]. rewrite IH by (intros G; apply F; right; auto). destruct (reg_dec y r); [exfalso; apply F; left; auto|reflexivity]. }
    rewrite Q by exact J. destruct (reg_dec r r) as [_|F]; [|congruence]. exists 0. split; [f_equal; lia|reflexivity].
Qed.
Lemma pair_up_spec : forall all l, NoDup all -> incl l all -> pair_up all l = Some (map (fun r => (r, r)) l).
Proof.
  intros all. induction l as [|r l IH]; intros N I; simpl; [reflexivity|].
  destruct (position_spec r all 0 (I r (or_introl eq_refl)) N) as (i & A & B). rewrite A. simpl. rewrite B, IH; auto. intros x Hx. apply I. right. exact Hx.
Qed.
Lemma final_spec : forall outs all, NoDup all -> incl outs all -> exists l, compute_final_permutation outs all = Some (map (fun r => (r, r)) (outs ++ l)) /\ incl l all.
Proof.
  intros outs all N I. unfold compute_final_permutation. destruct (extend_spec all outs) as (l & A & B). exists l. rewrite A. split; [|exact B].
  apply pair_up_spec; auto. intros x Hx. apply in_app_or in Hx. destruct Hx; auto.
Qed.

(** ** The decoder's permutation *)
Lemma index_of_spec : forall r l k, In r l -> exists i, index_of r l k = Some (k + i) /\ nth_error l i = Some r.
Proof.
  intros r. induction l as [|x l IH]; intros k I; [destruct I|]. simpl. destruct (reg_dec x r) as [->|F]; [exists 0; split; [f_equal; lia|reflexivity]|].
  destruct I as [->|I]; [congruence|]. destruct (IH (S k) I) as (i & A & B). exists (S i). rewrite A. split; [f_equal; lia|exact B].
Qed.
Lemma nth_inj : forall (l : list reg) i j r, NoDup l -> nth_error l i = Some r -> nth_error l j = Some r -> i = j.
Proof. intros l i j r N A B. apply (proj1 (NoDup_nth_error l) N); [apply nth_error_Some; congruence|congruence]. Qed.

Definition sorted (m : list (nat * nat)) : Prop := StronglySorted (fun a b => fst a < fst b) m.
Lemma insert_in : forall k v m k' v', sorted m -> (In (k', v') (tree_insert k v m) <-> (k' = k /\ v' = v) \/ (k' <> k /\ In (k', v') m)).
Proof.
  intros k v. induction m as [|[a b] m IH]; intros k' v' S.
  - simpl. split; [intros [E|[]]; injection E as -> ->; auto|intros [[-> ->]|[_ []]]; auto].
  - inversion S as [|? ? S' F]; subst. rewrite Forall_forall in F. cbn [tree_insert].
    destruct (Nat.ltb k a) eqn:L.
    + apply Nat.ltb_lt in L. assert (X : forall k' v', In (k', v') ((a, b) :: m) -> k' <> k).
      { intros x y [E|I]; [injection E as <- <-; lia|]. specialize (F _ I). simpl in F. lia. }
      split; [intros [E|I]; [injection E as -> ->; auto|right; split; [exact (X _ _ I)|exact I]]|intros [[-> ->]|[_ I]]; [left; reflexivity|right; exact I]].
    + apply Nat.ltb_ge in L. destruct (Nat.eqb k a) eqn:Q.
      * apply Nat.eqb_eq in Q. subst a. assert (X : forall y z, In (y, z) m -> y <> k) by (intros y z I; specialize (F _ I); simpl in F; lia).
        split; [intros [E|I]; [injection E as -> ->; auto|right; split; [exact (X _ _ I)|right; exact I]]|intros [[-> ->]|[N [E|I]]]; [left; reflexivity|injection E as -> ->; congruence|right; exact I]].
      * apply Nat.eqb_neq in Q. specialize (IH k' v' S'). split.
        -- intros [E|I]; [injection E as <- <-; right; split; [lia|left; reflexivity]|]. apply IH in I. destruct I as [I|[N I]]; [left; exact I|right; split; [exact N|right; exact I]].
        -- intros [I|[N [E|I]]]; [right; apply IH; left; exact I|left; exact E|right; apply IH; right; auto].
Qed.
Lemma insert_sorted : forall k v m, sorted m -> sorted (tree_insert k v m).
Proof.
  intros k v. induction m as [|[a b] m IH]; intros S; simpl; [repeat constructor|]. inversion S as [|? ? S' F]; subst.
  destruct (Nat.ltb k a) eqn:L; [apply Nat.ltb_lt in L; constructor; [exact S|constructor; [exact L|]]; rewrite Forall_forall in *; intros x Hx; specialize (F x Hx); simpl in *; lia|]. apply Nat.ltb_ge in L.
  destruct (Nat.eqb k a) eqn:Q; [apply Nat.eqb_eq in Q; subst a; constructor; [exact S'|exact F]|]. apply Nat.eqb_neq in Q.
  constructor; [apply IH; exact S'|]. rewrite Forall_forall in *. intros [x y] Hx. apply insert_in in Hx; [|exact S']. simpl. destruct Hx as [[-> ->]|[_ Hx]]; [lia|apply (F _ Hx)].
Qed.
Lemma reordered_spec : forall tr perm m, NoDup tr -> NoDup (map snd perm) -> (forall i o, In (i, o) perm -> In i tr /\ In o tr) -> sorted m ->
  (forall k v o, In (k, v) m -> nth_error tr k = Some o -> ~ In o (map snd perm)) ->
  exists m', reordered tr perm m = Some m' /\ sorted m' /\ forall k v, In (k, v) m' <-> In (k, v) m \/ exists i o, In (i, o) perm /\ nth_error tr k = Some o /\ nth_error tr v = Some i.
Proof.
  intros tr. induction perm as [|[i o] perm IH]; intros m N No H S D.
  - exists m. simpl. split; [reflexivity|]. split; [exact S|]. intros k v. split; [auto|intros [I|(? & ? & [] & _)]; exact I].
  - destruct (H i o (or_introl eq_refl)) as [Hi Ho]. simpl. destruct (index_of_spec i tr 0 Hi) as (ip & A1 & A2). destruct (index_of_spec o tr 0 Ho) as (op & B1 & B2). rewrite A1, B1. simpl.
    simpl in No. inversion No as [|? ? No1 No2]; subst.
    destruct (IH (tree_insert op ip m) N No2) as (m' & C1 & C2 & C3).
    + intros a b I. apply H. right. exact I.
    + apply insert_sorted. exact S.
    + intros k v x I Q. apply insert_in in I; [|exact S]. destruct I as [[-> ->]|[_ I]]; [rewrite B2 in Q; injection Q as <-; exact No1|]. intros F. apply (D k v x I Q). right. exact F.
    + exists m'. split; [exact C1|]. split; [exact C2|]. intros k v. rewrite C3, (insert_in op ip m k v S). split.
      * intros [[[-> ->]|[_ I]]|(x & y & I & P)]; [right; exists i, o; split; [left; reflexivity|auto]|left; exact I|right; exists x, y; split; [right; exact I|exact P]].
      * intros [I|(x & y & [E|I] & P1 & P2)].
        -- left. right. split; [|exact I]. intros ->. apply (D op v o I B2). left. reflexivity.
        -- injection E as <- <-. left. left. split; [exact (nth_inj tr _ _ _ N P1 B2)|exact (nth_inj tr _ _ _ N P2 A2)].
        -- right. exists x, y. auto.
Qed.
Lemma sorted_seq : forall m a n, sorted m -> (forall k, In k (map fst m) <-> a <= k < a + n) -> map fst m = seq a n.
Proof.
  induction m as [|[k v] m IH]; intros a n S H.
  - destruct n; [reflexivity|]. exfalso. apply (proj2 (H a)). lia.
  - inversion S as [|? ? S' F]; subst. rewrite Forall_forall in F. simpl in H. destruct n as [|n]; [exfalso; assert (X := proj1 (H k) (or_introl eq_refl)); lia|].
    assert (k = a).
    { assert (X := proj1 (H k) (or_introl eq_refl)). destruct (proj2 (H a) ltac:(lia)) as [E|I]; [exact E|]. apply in_map_iff in I. destruct I as ([x y] & E & I). simpl in E. subst x. specialize (F _ I). simpl in F. lia. }
    subst k. simpl. f_equal. apply IH; [exact S'|]. intros k. split.
    + intros I. assert (X := proj1 (H k) (or_intror I)). apply in_map_iff in I. destruct I as ([x y] & E & I). simpl in E. subst x. specialize (F _ I). simpl in F. lia.
    + intros R. destruct (proj2 (H k) ltac:(lia)) as [E|I]; [lia|exact I].
Qed.
Lemma get_all_spec : forall tr is, (forall i, In i is -> i < len tr) -> exists l, get_all tr is = Some l /\ len l = len is /\ forall k i, nth_error is k = Some i -> nth_error l k = nth_error tr i.
Proof.
  intros tr. induction is as [|i is IH]; intros H; simpl; [exists []; split; [reflexivity|]; split; [reflexivity|]; intros [|k] i E; discriminate|].
  destruct (nth_error tr i) as [r|] eqn:R; [|apply nth_error_None in R; specialize (H i (or_introl eq_refl)); lia].
  destruct IH as (l & A & B & C); [intros j J; apply H; right; exact J|]. rewrite A. exists (r :: l). split; [reflexivity|]. split; [simpl; lia|].
  intros [|k] j E; simpl in *; [injection E as <-; auto|apply C; exact E].
Qed.
Lemma known_spec : forall tr p, (forall i, In i p -> i < len tr) -> exists l, known_pytket_qubits tr p = Some l /\ len l = len tr /\ forall k, k < len tr -> nth_error l k = nth_error tr (nth k p k).
Proof.
  intros tr p H. unfold known_pytket_qubits. destruct (get_all_spec tr (map (fun i => nth i p i) (seq 0 (len tr)))) as (l & A & B & C).
  - intros i I. apply in_map_iff in I. destruct I as (k & <- & I). apply in_seq in I. destruct (nth_in_or_default k p k) as [J| ->]; [apply H; exact J|lia].
  - exists l. split; [exact A|]. rewrite map_length, seq_length in B. split; [exact B|]. intros k L. apply C. rewrite nth_error_map. rewrite (nth_error_nth' _ 0) by (rewrite seq_length; lia). rewrite seq_nth by lia. reflexivity.
Qed.

Lemma output_spec : forall tr perm m, NoDup tr -> NoDup (map snd perm) -> (forall i o, In (i, o) perm -> In i tr /\ In o tr) -> m <= len tr ->
  (forall k o, nth_error tr k = Some o -> (In o (map snd perm) <-> k < m)) ->
  exists p l, compute_output_permutation tr perm = Some p /\ known_pytket_qubits tr p = Some l /\ len l = len tr /\
    (forall k o i, nth_error tr k = Some o -> In (i, o) perm -> nth_error l k = Some i) /\
    (forall k o, nth_error tr k = Some o -> ~ In o (map snd perm) -> nth_error l k = Some o).
Proof.
  intros tr perm m N No H Lm P. destruct (reordered_spec tr perm [] N No H ltac:(constructor) ltac:(intros ? ? ? [])) as (t & A & B & C).
  unfold compute_output_permutation. rewrite A. exists (map snd t).
  assert (Bd : forall i, In i (map snd t) -> i < len tr).
  { intros i I. apply in_map_iff in I. destruct I as ([k v] & <- & I). apply C in I. destruct I as [[]|(x & y & _ & _ & E)]. simpl. apply nth_error_Some. congruence. }
  destruct (known_spec tr (map snd t) Bd) as (l & K1 & K2 & K3). exists l. split; [reflexivity|]. split; [exact K1|]. split; [exact K2|].
  assert (Q : map fst t = seq 0 m).
  { apply sorted_seq; [exact B|]. intros k. split.
    - intros I. apply in_map_iff in I. destruct I as ([k' v] & E & I). simpl in E. subst k'. apply C in I. destruct I as [[]|(x & y & I & E & _)]. split; [lia|]. apply (P k y E). apply (in_map snd) in I. exact I.
    - intros [_ R]. destruct (nth_error tr k) as [o|] eqn:E; [|apply nth_error_None in E; simpl in R; lia]. apply (P k o E) in R. apply in_map_iff in R. destruct R as ([i o'] & E' & I). simpl in E'. subst o'.
      destruct (H i o I) as [Hi _]. apply In_nth_error in Hi. destruct Hi as [v Hv]. apply in_map_iff. exists (k, v). split; [reflexivity|]. apply C. right. exists i, o. auto. }
  assert (Lt : len t = m) by (rewrite <- (map_length fst), Q; apply seq_length).
  split.
  - intros k o i E I. assert (Lk : k < m) by (apply (P k o E); apply (in_map snd) in I; exact I).
    rewrite K3 by lia. destruct (nth_error t k) as [[k' v]|] eqn:Tk; [|apply nth_error_None in Tk; lia].
    assert (k' = k). { assert (X : nth_error (map fst t) k = Some k') by (rewrite nth_error_map, Tk; reflexivity). rewrite Q in X. rewrite (nth_error_nth' _ 0) in X by (rewrite seq_length; lia). rewrite seq_nth in X by lia. simpl in X. congruence. }
    subst k'. assert (I' := nth_error_In _ _ Tk). apply C in I'. destruct I' as [[]|(x & y & J & E1 & E2)]. rewrite E in E1. injection E1 as <-.
    assert (nth k (map snd t) k = v) as -> by (apply nth_error_nth; rewrite nth_error_map, Tk; reflexivity). rewrite E2. f_equal.
    clear - No I J. induction perm as [|[a b] perm IH]; [destruct I|]. simpl in No. inversion No; subst. destruct I as [I|I], J as [J|J].
    + congruence.
    + injection I as -> ->. exfalso. apply H1. apply (in_map snd) in J. exact J.
    + injection J as -> ->. exfalso. apply H1. apply (in_map snd) in I. exact I.
    + auto.
  - intros k o E F. assert (Lk : m <= k) by (destruct (le_lt_dec m k); [auto|exfalso; apply F; apply (P k o E); auto]).
    assert (k < len tr) by (apply nth_error_Some; congruence). rewrite K3 by lia. rewrite nth_overflow by (rewrite map_length; lia). exact E.
Qed.

Lemma prefix_eq : forall outs all : list reg, len outs <= len all -> (forall k r d, nth_error outs k = Some r -> nth_error all k = Some d -> r = d) -> outs = firstn (len outs) all.
Proof.
  induction outs as [|o outs IH]; intros all L H; [reflexivity|]. destruct all as [|a all]; [simpl in L; lia|]. simpl. f_equal; [exact (H 0 o a eq_refl eq_refl)|].
  apply IH; [simpl in L; lia|]. intros k r d A B. exact (H (S k) r d A B).
Qed.
Lemma prefix_nth : forall (outs all : list reg) k r d, outs = firstn (len outs) all -> nth_error outs k = Some r -> nth_error all k = Some d -> r = d.
Proof.
  intros outs all k r d E A B. rewrite <- (firstn_skipn (len outs) all) in B. rewrite <- E in B. rewrite nth_error_app1 in B by (apply nth_error_Some; congruence). congruence.
Qed.
Lemma list_ext : forall (a b : list reg), len a = len b -> (forall k r, nth_error b k = Some r -> nth_error a k = Some r) -> a = b.
Proof.
  induction a as [|x a IH]; intros [|y b] L H; simpl in L; try lia; [reflexivity|]. assert (E := H 0 y eq_refl). simpl in E. injection E as ->. f_equal. apply IH; [lia|]. intros k r A. exact (H (S k) r A).
Qed.
(** Pairs of equal registers that are all of those tracked: nothing moves. *)
Lemma identity_known : forall tr l, NoDup tr -> NoDup l -> (forall r, In r l <-> In r tr) ->
  exists p, compute_output_permutation tr (map (fun r => (r, r)) l) = Some p /\ known_pytket_qubits tr p = Some tr.
Proof.
  intros tr l N Nl E. assert (M : map snd (map (fun r : reg => (r, r)) l) = l) by (rewrite map_map; simpl; apply map_id).
  destruct (output_spec tr (map (fun r => (r, r)) l) (len tr)) as (p & k & A & B & C & D & _).
  - exact N.
  - rewrite M. exact Nl.
  - intros i o I. apply in_map_iff in I. destruct I as (x & X & I). injection X as <- <-. split; apply E; exact I.
  - lia.
  - intros j o J. rewrite M. split; [intros _; apply nth_error_Some; congruence|intros _; apply E; eapply nth_error_In; eauto].
  - exists p. split; [exact A|]. rewrite B. f_equal. apply list_ext; [exact C|]. intros j r J. apply (D j r r J). apply in_map_iff. exists r. split; [reflexivity|]. apply E. eapply nth_error_In; eauto.
Qed.
Lemma extend_nodup : forall rs seen, NoDup seen -> NoDup (extend seen rs) /\ forall r, In r (extend seen rs) <-> In r seen \/ In r rs.
Proof.
  induction rs as [|x rs IH]; intros seen N; simpl; [split; [exact N|intuition]|].
  destruct (in_dec reg_dec x seen) as [I|I].
  - destruct (IH seen N) as [A B]. split; [exact A|]. intros r. rewrite B. intuition. subst. auto.
  - destruct (IH (seen ++ [x])) as [A B].
    + apply NoDup_rev in N. rewrite <- (rev_involutive (seen ++ [x])). apply NoDup_rev. rewrite rev_app_distr. simpl. constructor; [rewrite <- in_rev; exact I|exact N].
    + split; [exact A|]. intros r. rewrite B, in_app_iff. simpl. intuition.
Qed.
