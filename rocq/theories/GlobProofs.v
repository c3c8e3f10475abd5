(** Lemmas about constant strings. *)
From Coq Require Import List Arith Bool ZArith String Ascii Decimal DecimalString DecimalNat FinFun Lia.
From Verif Require Import GlobModel GlobSpec.
Import ListNotations.

Lemma bytes_eqb_spec : forall a b, bytes_eqb a b = true <-> a = b.
Proof. intros. unfold bytes_eqb. destruct (list_eq_dec Z.eq_dec a b); split; congruence. Qed.
Lemma bytes_eqb_refl : forall a, bytes_eqb a a = true.
Proof. intros. now apply bytes_eqb_spec. Qed.

Lemma of_string_inj : forall a b, of_string a = of_string b -> a = b.
Proof.
  induction a as [|c a IH]; intros [|c' b]; simpl; intros H; try discriminate; auto.
  injection H as H1 H2. f_equal; auto.
  apply Nat2Z.inj in H1. rewrite <- (ascii_nat_embedding c), <- (ascii_nat_embedding c'). now f_equal.
Qed.

Lemma decimal_inj : forall i j, decimal i = decimal j -> i = j.
Proof.
  unfold decimal. intros i j H. apply of_string_inj in H.
  assert (E : Some (Nat.to_uint i) = Some (Nat.to_uint j)).
  { rewrite <- (NilEmpty.usu (Nat.to_uint i)), H. apply NilEmpty.usu. }
  injection E as E. rewrite <- (Unsigned.of_to i), <- (Unsigned.of_to j). now f_equal.
Qed.
Lemma nth_name_inj : forall p i j, nth_name p i = nth_name p j -> i = j.
Proof.
  unfold nth_name. intros p i j H. apply app_inv_head in H. apply app_inv_head in H. now apply decimal_inj.
Qed.

Lemma get_global_in : forall m g v, get_global m g = Some v -> In g (map fst m).
Proof.
  induction m as [|[n i] m IH]; simpl; intros g v H; try discriminate.
  destruct (bytes_eqb n g) eqn:E; [left; now apply bytes_eqb_spec | right; eauto].
Qed.
Lemma get_global_app : forall m m' g,
  get_global (m ++ m') g = match get_global m g with Some v => Some v | None => get_global m' g end.
Proof. induction m as [|[n i] m IH]; simpl; intros; auto. destruct (bytes_eqb n g); auto. Qed.

Lemma keeps_refl : forall m, keeps m m.
Proof. unfold keeps; auto. Qed.
Lemma keeps_trans : forall a b c, keeps a b -> keeps b c -> keeps a c.
Proof. unfold keeps; auto. Qed.
Lemma keeps_app : forall m m', keeps m (m ++ m').
Proof. unfold keeps; intros m m' g v H. now rewrite get_global_app, H. Qed.

(** Where the search ends. *)
Lemma find_name_spec : forall fuel i p c m m' g,
  find_name fuel i p c m = Some (m', g) ->
  exists j, i <= j /\ g = nth_name p j /\ holds m' g c /\
    (m' = m \/ (get_global m g = None /\ m' = m ++ [(g, Some c)])) /\
    forall k, i <= k < j -> exists v, get_global m (nth_name p k) = Some v /\ v <> Some c.
Proof.
  induction fuel as [|f IH]; simpl; intros i p c m m' g H; try discriminate.
  assert (R : forall v, get_global m (nth_name p i) = Some v -> v <> Some c ->
              find_name f (S i) p c m = Some (m', g) ->
              exists j, i <= j /\ g = nth_name p j /\ holds m' g c /\
                (m' = m \/ (get_global m g = None /\ m' = m ++ [(g, Some c)])) /\
                forall k, i <= k < j -> exists v, get_global m (nth_name p k) = Some v /\ v <> Some c).
  { intros v V N K. destruct (IH _ _ _ _ _ _ K) as (j & A & B & C & E & F).
    exists j. repeat split; auto; try lia. intros k L.
    destruct (Nat.eq_dec k i) as [->|]; [eauto | apply F; lia]. }
  destruct (get_global m (nth_name p i)) as [[v|]|] eqn:E.
  - destruct (bytes_eqb v c) eqn:B.
    + apply bytes_eqb_spec in B as ->. injection H as <- <-. exists i. repeat split; auto. intros; lia.
    + apply (R (Some v)); auto. intros K. injection K as ->. now rewrite bytes_eqb_refl in B.
  - apply (R None); auto. discriminate.
  - injection H as <- <-. exists i. repeat split; auto.
    + unfold holds. rewrite get_global_app, E. simpl. now rewrite bytes_eqb_refl.
    + intros; lia.
Qed.

Lemma find_name_none : forall fuel i p c m,
  find_name fuel i p c m = None ->
  forall k, i <= k < i + fuel -> exists v, get_global m (nth_name p k) = Some v.
Proof.
  induction fuel as [|f IH]; simpl; intros i p c m H k L; [lia|].
  destruct (get_global m (nth_name p i)) as [[v|]|] eqn:E; try discriminate.
  - destruct (bytes_eqb v c); try discriminate.
    destruct (Nat.eq_dec k i) as [->|]; [eauto | apply (IH _ _ _ _ H); lia].
  - destruct (Nat.eq_dec k i) as [->|]; [eauto | apply (IH _ _ _ _ H); lia].
Qed.

Lemma find_name_some : forall p c m, find_name (S (List.length m)) 0 p c m <> None.
Proof.
  intros p c m H. pose proof (find_name_none _ _ _ _ _ H) as A.
  assert (N : NoDup (map (nth_name p) (seq 0 (S (List.length m))))).
  { apply Injective_map_NoDup; [intros x y; apply nth_name_inj | apply seq_NoDup]. }
  assert (I : incl (map (nth_name p) (seq 0 (S (List.length m)))) (map fst m)).
  { intros g G. apply in_map_iff in G as (k & <- & K). apply in_seq in K.
    destruct (A k ltac:(lia)) as [v V]. eapply get_global_in; eauto. }
  pose proof (NoDup_incl_length N I) as L. rewrite !map_length, seq_length in L. lia.
Qed.

(** The search again, in a larger module. *)
Lemma find_name_from : forall n fuel i p c m,
  n < fuel ->
  (forall k, i <= k < i + n -> exists v, get_global m (nth_name p k) = Some v /\ v <> Some c) ->
  holds m (nth_name p (i + n)) c ->
  find_name fuel i p c m = Some (m, nth_name p (i + n)).
Proof.
  induction n as [|n IH]; intros fuel i p c m L A B; (destruct fuel as [|f]; [lia|]); simpl.
  - rewrite Nat.add_0_r in *. unfold holds in B. rewrite B, bytes_eqb_refl. reflexivity.
  - destruct (A i ltac:(lia)) as (v & V & N). rewrite V.
    assert (K : find_name f (S i) p c m = Some (m, nth_name p (i + S n))).
    { replace (i + S n) with (S i + n) in * by lia. apply IH; auto; try lia. intros k Q; apply A; lia. }
    destruct v as [v|]; auto. destruct (bytes_eqb v c) eqn:E; auto.
    apply bytes_eqb_spec in E. congruence.
Qed.

Section S.
Variables hash take10 : bytes -> bytes.
Notation emit := (emit_global_string hash take10).

Lemma emit_ok : forall m s y p m' g,
  emit m s y p = EOk (m', g) ->
  holds m' g (counted (p ++ s)) /\ keeps m m' /\
  (m' = m \/ (get_global m g = None /\ m' = m ++ [(g, Some (counted (p ++ s)))])) /\
  List.length (p ++ s) < 256.
Proof.
  unfold emit_global_string. intros m s y p m' g H.
  destruct (List.length (p ++ s) <? 256) eqn:L; try discriminate. apply Nat.ltb_lt in L.
  destruct (find_name _ _ _ _ _) as [r|] eqn:F; try discriminate. injection H as ->.
  apply find_name_spec in F as (j & _ & _ & A & B & _).
  repeat split; auto. destruct B as [->|[_ ->]]; [apply keeps_refl | apply keeps_app].
Qed.
Lemma emit_total : forall m s y p,
  if List.length (p ++ s) <? 256 then exists r, emit m s y p = EOk r else emit m s y p = EErr.
Proof.
  intros. unfold emit_global_string. destruct (List.length (p ++ s) <? 256); auto.
  destruct (find_name _ _ _ _ _) eqn:F; eauto. now apply find_name_some in F.
Qed.
Lemma emit_again : forall m s y p m' g m2,
  emit m s y p = EOk (m', g) -> keeps m' m2 -> emit m2 s y p = EOk (m2, g).
Proof.
  unfold emit_global_string. intros m s y p m' g m2 H K.
  destruct (List.length (p ++ s) <? 256) eqn:L; try discriminate.
  destruct (find_name (S (List.length m)) _ _ _ _) as [r|] eqn:F; try discriminate. injection H as ->.
  set (c := Z.of_nat (List.length (p ++ s)) :: p ++ s) in *.
  set (q := name_prefix hash take10 y s c) in *.
  apply find_name_spec in F as (j & _ & -> & A & B & C).
  assert (KM : keeps m m') by (destruct B as [->|[_ ->]]; [apply keeps_refl | apply keeps_app]).
  assert (P : forall k, k < j -> exists v, get_global m2 (nth_name q k) = Some v /\ v <> Some c).
  { intros k Lk. destruct (C k ltac:(lia)) as (v & V & N). exists v. split; auto. }
  assert (Hj : holds m2 (nth_name q j) c) by (apply K; exact A).
  assert (LE : j < S (List.length m2)).
  { assert (N : NoDup (map (nth_name q) (seq 0 (S j)))).
    { apply Injective_map_NoDup; [intros x z; apply nth_name_inj | apply seq_NoDup]. }
    assert (I : incl (map (nth_name q) (seq 0 (S j))) (map fst m2)).
    { intros g G. apply in_map_iff in G as (k & <- & Kk). apply in_seq in Kk.
      destruct (Nat.eq_dec k j) as [->|]; [eapply get_global_in; exact Hj|].
      destruct (P k ltac:(lia)) as (v & V & _). eapply get_global_in; eauto. }
    pose proof (NoDup_incl_length N I) as Le. rewrite !map_length, seq_length in Le. lia. }
  pose proof (find_name_from j (S (List.length m2)) 0 q c m2 LE) as Fd. simpl plus in Fd.
  rewrite Fd; auto. intros k [_ Lk]; auto.
Qed.

Lemma emit_all_keeps : forall rs m m' gs, emit_all hash take10 m rs = EOk (m', gs) -> keeps m m'.
Proof.
  induction rs as [|[[s y] p] rs IH]; simpl; intros m m' gs H.
  - injection H as <- <-. apply keeps_refl.
  - destruct (emit m s y p) as [[m1 g]| |] eqn:E; try discriminate.
    destruct (emit_all _ _ m1 rs) as [[m2 gs2]| |] eqn:F; try discriminate. injection H as <- <-.
    eapply keeps_trans; [apply (emit_ok _ _ _ _ _ _ E) | eauto].
Qed.
Lemma emit_all_holds : forall rs m m' gs, emit_all hash take10 m rs = EOk (m', gs) ->
  Forall2 (fun r g => holds m' g (counted (text r)) /\ List.length (text r) < 256) rs gs.
Proof.
  induction rs as [|[[s y] p] rs IH]; simpl; intros m m' gs H.
  - injection H as <- <-. constructor.
  - destruct (emit m s y p) as [[m1 g]| |] eqn:E; try discriminate.
    destruct (emit_all _ _ m1 rs) as [[m2 gs2]| |] eqn:F; try discriminate. injection H as <- <-.
    constructor; [|eapply IH; eauto]. destruct (emit_ok _ _ _ _ _ _ E) as (A & _ & _ & B).
    split; auto. apply (emit_all_keeps _ _ _ _ F). exact A.
Qed.
Lemma emit_all_again : forall rs m m' gs, emit_all hash take10 m rs = EOk (m', gs) ->
  forall s y p g i, nth_error rs i = Some (s, y, p) -> nth_error gs i = Some g ->
  forall m2, keeps m' m2 -> emit m2 s y p = EOk (m2, g).
Proof.
  induction rs as [|[[s0 y0] p0] rs IH]; simpl; intros m m' gs H s y p g i R G m2 K.
  - destruct i; discriminate.
  - destruct (emit m s0 y0 p0) as [[m1 g1]| |] eqn:E; try discriminate.
    destruct (emit_all _ _ m1 rs) as [[m3 gs2]| |] eqn:F; try discriminate. injection H as <- <-.
    destruct i as [|i]; simpl in R, G.
    + injection R as -> -> ->. injection G as ->.
      eapply emit_again; eauto. eapply keeps_trans; [eapply emit_all_keeps; eauto | auto].
    + eapply IH; eauto.
Qed.
Lemma emit_all_total : forall rs m,
  (Forall (fun r => List.length (text r) < 256) rs -> exists r, emit_all hash take10 m rs = EOk r) /\
  emit_all hash take10 m rs <> EPanic.
Proof.
  induction rs as [|[[s y] p] rs IH]; simpl; intros m.
  - split; [eauto | discriminate].
  - pose proof (emit_total m s y p) as T. destruct (List.length (p ++ s) <? 256) eqn:L.
    + destruct T as [[m1 g] T]. rewrite T. destruct (IH m1) as [A B]. split.
      * intros F. inversion F; subst. destruct (A H2) as [[m2 gs] Q]. rewrite Q. eauto.
      * destruct (emit_all _ _ m1 rs) as [[]| |]; congruence.
    + rewrite T. split; [|discriminate]. intros F. inversion F; subst. simpl in H1.
      apply Nat.ltb_ge in L. lia.
Qed.

(** ** Tags *)
Lemma tag_prefix_text : forall k, tag_prefix k = of_string (kind_text k).
Proof. destruct k; reflexivity. Qed.

Definition one_tag (m : globals) (k : option rkind) (tag : bytes) : emitted (globals * bytes) :=
  match k with Some k => result_tag hash take10 m k tag | None => state_tag hash take10 m tag end.

Lemma one_tag_ok : forall m k tag m' g, one_tag m k tag = EOk (m', g) ->
  tag <> [] /\ exists p, p ++ tag = tag_text k tag /\ emit m tag (of_string "res_") p = EOk (m', g).
Proof.
  intros m k tag m' g H. destruct k as [k|]; simpl in H.
  - unfold result_tag, generate_global_tag, unwrap in H. destruct tag as [|b tag]; [discriminate|].
    split; [discriminate|]. exists (tag_prefix k). split; [now rewrite tag_prefix_text|].
    destruct (emit m _ _ _) as [[]| |] eqn:E; try discriminate. injection H as -> ->. reflexivity.
  - unfold state_tag in H. destruct tag as [|b tag]; [discriminate|].
    split; [discriminate|]. exists (of_string "USER:STATE:"). split; auto.
Qed.

Lemma tag_all_keeps : forall rs m m' gs, tag_all hash take10 m rs = EOk (m', gs) -> keeps m m'.
Proof.
  induction rs as [|[k tag] rs IH]; simpl; intros m m' gs H.
  - injection H as <- <-. apply keeps_refl.
  - destruct (one_tag m k tag) as [[m1 g]| |] eqn:E; unfold one_tag in E; rewrite E in H; try discriminate.
    destruct (tag_all _ _ m1 rs) as [[m2 gs2]| |] eqn:F; try discriminate. injection H as <- <-.
    apply one_tag_ok in E as (_ & p & _ & E).
    eapply keeps_trans; [apply (emit_ok _ _ _ _ _ _ E) | eauto].
Qed.
Lemma tag_all_holds : forall rs m m' gs, tag_all hash take10 m rs = EOk (m', gs) ->
  Forall2 (fun r g => snd r <> [] /\ holds m' g (counted (tag_text (fst r) (snd r))) /\
                      List.length (tag_text (fst r) (snd r)) < 256) rs gs.
Proof.
  induction rs as [|[k tag] rs IH]; simpl; intros m m' gs H.
  - injection H as <- <-. constructor.
  - destruct (one_tag m k tag) as [[m1 g]| |] eqn:E; unfold one_tag in E; rewrite E in H; try discriminate.
    destruct (tag_all _ _ m1 rs) as [[m2 gs2]| |] eqn:F; try discriminate. injection H as <- <-.
    apply one_tag_ok in E as (N & p & P & E).
    constructor; [|eapply IH; eauto]. destruct (emit_ok _ _ _ _ _ _ E) as (A & _ & _ & B). simpl.
    rewrite P in *. repeat split; auto. apply (tag_all_keeps _ _ _ _ F). exact A.
Qed.

Lemma tag_text_inj : forall k k' t t', tag_text k t = tag_text k' t' -> t = t' /\ same_kind k k'.
Proof.
  intros k k' t t' H. unfold same_kind.
  destruct k as [[]|], k' as [[]|]; unfold tag_text in H; simpl in H; try discriminate;
    repeat match goal with H : _ :: _ = _ :: _ |- _ => injection H as H end;
    (split; [assumption | simpl; tauto]).
Qed.
End S.
