(** Proofs about the encoding of constants. *)
From Coq Require Import List Arith Bool Lia Permutation.
From Verif Require Import CfgModel CfgSpec CfgProofs CfgProofs2.
Import ListNotations.

Lemma nodup_app : forall A (a b : list A), NoDup a -> NoDup b -> (forall x, In x a -> ~ In x b) -> NoDup (a ++ b).
Proof.
  induction a as [|x a IH]; intros b Na Nb D; simpl; [exact Nb|]. inversion Na as [|? ? Nx Na']; subst. constructor.
  - intros I. apply in_app_iff in I as [I|I]; [contradiction|]. exact (D x (or_introl eq_refl) I).
  - apply IH; [exact Na'|exact Nb|]. intros y I. apply D. now right.
Qed.
Lemma bools_app : forall a b, bools (a ++ b) = bools a ++ bools b.
Proof. intros. unfold bools. apply flat_map_app. Qed.
Lemma angles_app : forall a b, angles (a ++ b) = angles a ++ angles b.
Proof. intros. unfold angles. apply flat_map_app. Qed.

(** ** Values *)
Lemma append_nil_r : forall vs, append vs no_values = vs.
Proof. intros [a b]. unfold append. simpl. now rewrite !app_nil_r. Qed.
Lemma append_nil_l : forall vs, append no_values vs = vs.
Proof. intros [a b]. reflexivity. Qed.
Lemma append_assoc : forall a b c, append (append a b) c = append a (append b c).
Proof. intros. unfold append. simpl. now rewrite !app_assoc. Qed.

Lemma hold_nil : forall s, in_order s -> hold [] s no_values s.
Proof.
  intros s O. split; simpl; try reflexivity; try exact O.
  - constructor.
  - intros i [].
  - auto.
  - exists []. rewrite app_nil_r. repeat split; auto; destruct k; discriminate.
  - exists []. now rewrite app_nil_r.
Qed.

Lemma kept_params : forall (p p' : list nat) ks xs, map (fun i => nth_error p i) ks = map Some xs ->
  map (fun i => nth_error (p ++ p') i) ks = map Some xs.
Proof.
  intros p p'. induction ks as [|k ks IH]; intros [|x xs] E; try discriminate; [reflexivity|]. simpl in E. injection E as E1 E2. simpl.
  rewrite (IH _ E2). f_equal. rewrite <- E1. apply nth_error_app1. apply nth_error_Some. rewrite E1. discriminate.
Qed.

Lemma hold_app : forall l l' s s' s'' vs vs', hold l s vs s' -> hold l' s' vs' s'' -> hold (l ++ l') s (append vs vs') s''.
Proof.
  intros l l' s s' s'' vs vs' [A1 A2 A3 A4 (na & A5 & A5' & A5'') A6 (pa & A7) A8] [B1 B2 B3 B4 (nb & B5 & B5' & B5'') B6 (pb & B7) B8].
  split; simpl; rewrite ?bools_app, ?angles_app.
  - now rewrite !app_length, A1, B1.
  - apply nodup_app; [exact A2|exact B2|]. intros i Ia Ib. exact (proj1 (B3 i Ib) (proj2 (A3 i Ia))).
  - intros i I. apply in_app_iff in I as [I|I].
    + destruct (A3 i I) as [N U]. auto.
    + destruct (B3 i I) as [N U]. auto.
  - auto.
  - exists (na ++ nb). split; [now rewrite B5, A5, app_assoc|]. split.
    + intros k i b Ek Eb. rewrite in_app_iff. destruct (lt_dec k (length (t_bits vs))) as [L|L].
      * rewrite nth_error_app1 in Ek by exact L. rewrite nth_error_app1 in Eb by (now rewrite <- A1). rewrite <- (A5' k i b Ek Eb).
        split; [|auto]. intros [I|I]; [exact I|]. exfalso. exact (proj1 (B3 i (B5'' i I)) (proj2 (A3 i (nth_error_In _ _ Ek)))).
      * rewrite nth_error_app2 in Ek by lia. rewrite nth_error_app2 in Eb by lia. rewrite <- A1 in Eb. rewrite <- (B5' _ i b Ek Eb).
        split; [|auto]. intros [I|I]; [|exact I]. exfalso. exact (proj1 (B3 i (nth_error_In _ _ Ek)) (proj2 (A3 i (A5'' i I)))).
    + intros i I. apply in_app_iff. apply in_app_iff in I as [I|I]; auto.
  - rewrite !map_app, B6. f_equal. rewrite B7. now apply kept_params.
  - exists (pa ++ pb). now rewrite B7, A7, app_assoc.
  - exact B8.
Qed.

Lemma new_bit_fresh : forall s i s', in_order s -> new_bit s = (i, s') ->
  ~ in_use s i /\ in_use s' i /\ (forall j, in_use s j -> in_use s' j) /\ in_order s' /\ e_set s' = e_set s /\ e_params s' = e_params s.
Proof.
  intros s i s' [Nd Lt] E. unfold new_bit in E. destruct (e_unused s) as [|u l] eqn:Eu; injection E as <- <-; unfold in_use, in_order; simpl; rewrite Eu.
  - split; [intros [L _]; lia|]. split; [split; [lia|intros []]|]. split; [intros j [L _]; split; [lia|intros []]|].
    split; [split; [constructor|intros j []]|auto].
  - inversion Nd as [|? ? Nu Nl]; subst. assert (Lu : u < e_next s) by (apply Lt; now left).
    split; [intros [_ K]; apply K; now left|]. split; [split; assumption|].
    split; [intros j [L K]; split; [exact L|intros I; apply K; now right]|].
    split; [split; [exact Nl|intros j I; apply Lt; now right]|auto].
Qed.

Lemma hold_bit : forall b s i s', in_order s -> const_bit b s = (i, s') -> hold [LBit b] s {| t_bits := [i]; t_params := [] |} s'.
Proof.
  intros b s i s' O E. unfold const_bit in E. destruct (new_bit s) as [j s1] eqn:En.
  destruct (new_bit_fresh s j s1 O En) as (F & U & K & O1 & Es & Ep). injection E as <- <-.
  assert (U' : forall s2, e_unused s2 = e_unused s1 -> e_next s2 = e_next s1 -> (forall x, in_use s1 x -> in_use s2 x) /\ in_order s2).
  { intros s2 E1 E2. unfold in_use, in_order in *. rewrite E1, E2. auto. }
  destruct b.
  - set (s2 := {| e_unused := e_unused s1; e_next := e_next s1; e_set := e_set s1 ++ [j]; e_params := e_params s1 |}).
    destruct (U' s2 eq_refl eq_refl) as [V O2]. split; simpl.
    + reflexivity.
    + constructor; [intros []|constructor].
    + intros x [<-|[]]. auto.
    + auto.
    + exists [j]. rewrite Es. split; [reflexivity|]. split; [|auto]. intros [|[|k]] x b Ex Eb; try discriminate. injection Ex as <-. injection Eb as <-. split; [auto|now left].
    + reflexivity.
    + exists []. now rewrite app_nil_r.
    + exact O2.
  - split; simpl.
    + reflexivity.
    + constructor; [intros []|constructor].
    + intros x [<-|[]]. auto.
    + auto.
    + exists []. rewrite Es, app_nil_r. split; [reflexivity|]. split; [|intros x []]. intros [|[|k]] x b Ex Eb; try discriminate. injection Eb as <-. split; [intros []|discriminate].
    + reflexivity.
    + exists []. now rewrite app_nil_r.
    + exact O1.
Qed.

Lemma emit_hold : forall l s vs s', in_order s -> emit l s = (vs, s') -> hold l s vs s'.
Proof.
  induction l as [|[b|x] l IH]; intros s vs s' O E; simpl in E.
  - injection E as <- <-. now apply hold_nil.
  - destruct (const_bit b s) as [i s1] eqn:Eb. pose proof (hold_bit _ _ _ _ O Eb) as H1. destruct (emit l s1) as [vs1 s2] eqn:Ee. injection E as <- <-.
    change (LBit b :: l) with ([LBit b] ++ l). eapply hold_app; [exact H1|]. apply IH; [exact (ho_order _ _ _ _ H1)|exact Ee].
  - set (s1 := {| e_unused := e_unused s; e_next := e_next s; e_set := e_set s; e_params := e_params s ++ [x] |}) in E.
    destruct (emit l s1) as [vs1 s2] eqn:Ee. injection E as <- <-.
    change (LParam x :: l) with ([LParam x] ++ l).
    assert (H1 : hold [LParam x] s {| t_bits := []; t_params := [length (e_params s)] |} s1).
    { split; simpl; try reflexivity; try (now intros i []).
      - constructor.
      - exists []. rewrite app_nil_r. split; [reflexivity|]. split; [intros [|k] i b Ek; discriminate|intros i []].
      - rewrite nth_error_app2, Nat.sub_diag by lia. reflexivity.
      - exists [x]. reflexivity.
      - exact O. }
    eapply hold_app; [exact H1|]. apply IH; [exact (ho_order _ _ _ _ H1)|exact Ee].
Qed.

(** ** The queue *)
Lemma queue_tuple : forall g f tag ts vals q vs s,
  encode_queue g (S f) (VSum tag [ts] vals :: q) vs s = encode_queue g f (q ++ vals) vs s.
Proof. intros. destruct ts; reflexivity. Qed.

Definition weight (q : list value) : nat := list_sum (map vsize q).
Lemma weight_app : forall a b, weight (a ++ b) = weight a + weight b.
Proof. intros. unfold weight. now rewrite map_app, list_sum_app. Qed.
Lemma weight_cons : forall v q, weight (v :: q) = vsize v + weight q.
Proof. reflexivity. Qed.

Lemma spell_all_app : forall ems a la, spell_all ems a la -> forall b lb, spell_all ems b lb -> spell_all ems (a ++ b) (la ++ lb).
Proof. intros ems a la A. induction A; intros b lb B; simpl; [exact B|]. rewrite <- app_assoc. constructor; auto. Qed.

Lemma queue_spells : forall ems f q ls vs s, weight q < f -> in_order s -> spell_all ems q ls -> (forall v, In v q -> ~ has_bool v) ->
  exists ls' vs' s', encode_queue (configure ems) f q vs s = Encoded (append vs vs') s' /\ hold ls' s vs' s' /\ Permutation ls ls'.
Proof.
  intros ems. induction f as [|f IH]; intros q ls vs s L O Sa Nb; [lia|].
  inversion Sa as [|v q' l ls0 Sv Sq]; subst.
  - exists [], no_values, s. split; [simpl; now rewrite append_nil_r|]. split; [now apply hold_nil|constructor].
  - rewrite weight_cons in L. inversion Sv as [tag|ts vals l0 Sl|e n args p l0 En]; subst.
    + exfalso. apply (Nb (VSum tag [[]; []] [])); [now left|constructor].
    + rewrite queue_tuple. destruct (IH (q' ++ vals) (ls0 ++ l) vs s) as (ls' & vs' & s' & E & H & P).
      * rewrite weight_app. unfold weight at 2. simpl in L. lia.
      * exact O.
      * now apply spell_all_app.
      * intros w I. apply in_app_iff in I as [I|I]; [apply Nb; now right|]. intros Hb. apply (Nb (VSum 0 [ts] vals)); [now left|]. now apply hb_part with w.
      * exists ls', vs', s'. split; [exact E|]. split; [exact H|]. apply Permutation_trans with (ls0 ++ l); [apply Permutation_app_comm|exact P].
    + cbn [encode_queue]. rewrite (const_encoded _ _ _ _ _ _ En). destruct (emit l s) as [vs1 s1] eqn:Ee.
      pose proof (emit_hold _ _ _ _ O Ee) as H1. destruct (IH q' ls0 (append vs vs1) s1) as (ls' & vs' & s' & E & H & P).
      * simpl in L. lia.
      * exact (ho_order _ _ _ _ H1).
      * exact Sq.
      * intros w I. apply Nb. now right.
      * exists (l ++ ls'), (append vs1 vs'), s'. split; [now rewrite E, append_assoc|]. split; [now apply hold_app with s1|now apply Permutation_app_head].
Qed.

Definition is_ext (v : value) : Prop := exists e n args p, v = VExt e n args p.
Definition tidy (q : list value) : Prop :=
  (forall v, In v q -> is_ext v) \/ exists pre v, q = pre ++ [v] /\ (forall v, In v pre -> is_ext v) /\ last_nested v.
Lemma tidy_ext : forall v q, is_ext v -> tidy (v :: q) -> tidy q.
Proof.
  intros v q Ev [F|(pre & w & E & F & Ln)]; [left; intros x I; apply F; now right|].
  destruct pre as [|x pre]; simpl in E; injection E as -> ->; [left; intros x []|].
  right. exists pre, w. split; [reflexivity|]. split; [intros y I; apply F; now right|exact Ln].
Qed.
Lemma tidy_sum : forall tag rows vals q, tidy (VSum tag rows vals :: q) -> q = [] /\ tidy vals.
Proof.
  intros tag rows vals q [F|(pre & w & E & F & Ln)].
  - destruct (F _ (or_introl eq_refl)) as (e & n & args & p & D). discriminate.
  - destruct pre as [|x pre]; simpl in E.
    + injection E as <- ->. split; [reflexivity|]. inversion Ln as [|? ? ? Fv|? ? vs v Fv Lv]; subst; [left; exact Fv|right; eauto].
    + injection E as <- E. destruct (F _ (or_introl eq_refl)) as (e & n & args & p & D). discriminate.
Qed.

Lemma queue_order : forall ems f q ls vs s, weight q < f -> in_order s -> spell_all ems q ls -> (forall v, In v q -> ~ has_bool v) -> tidy q ->
  exists vs' s', encode_queue (configure ems) f q vs s = Encoded (append vs vs') s' /\ hold ls s vs' s'.
Proof.
  intros ems. induction f as [|f IH]; intros q ls vs s L O Sa Nb Td; [lia|].
  inversion Sa as [|v q' l ls0 Sv Sq]; subst.
  - exists no_values, s. split; [simpl; now rewrite append_nil_r|now apply hold_nil].
  - rewrite weight_cons in L. inversion Sv as [tag|ts vals l0 Sl|e n args p l0 En]; subst.
    + exfalso. apply (Nb (VSum tag [[]; []] [])); [now left|constructor].
    + rewrite queue_tuple. apply tidy_sum in Td as [-> Tv]. inversion Sq; subst. rewrite app_nil_r. simpl app.
      apply IH; [unfold weight; simpl in L; lia|exact O|exact Sl| |exact Tv].
      intros w I Hb. apply (Nb (VSum 0 [ts] vals)); [now left|]. now apply hb_part with w.
    + cbn [encode_queue]. rewrite (const_encoded _ _ _ _ _ _ En). destruct (emit l s) as [vs1 s1] eqn:Ee.
      pose proof (emit_hold _ _ _ _ O Ee) as H1. destruct (IH q' ls0 (append vs vs1) s1) as (vs' & s' & E & H).
      * simpl in L. lia.
      * exact (ho_order _ _ _ _ H1).
      * exact Sq.
      * intros w I. apply Nb. now right.
      * apply tidy_ext with (VExt e n args p); [unfold is_ext; eauto|exact Td].
      * exists (append vs1 vs'), s'. split; [now rewrite E, append_assoc|now apply hold_app with s1].
Qed.

Lemma queue_ends : forall g f q vs s, weight q < f -> encode_queue g f q vs s <> OutOfFuel.
Proof.
  intros g. induction f as [|f IH]; intros q vs s L; [lia|]. destruct q as [|v q]; [discriminate|]. rewrite weight_cons in L.
  destruct v as [tag rows vals|e n args p|].
  - simpl in L. destruct (shapes rows) as [| |ts|a b rows N].
    + cbn [encode_queue]. apply IH. lia.
    + cbn [encode_queue]. destruct (const_bit (tag =? 1) s). discriminate.
    + rewrite queue_tuple. apply IH. rewrite weight_app. unfold weight at 2. lia.
    + assert (E : encode_queue g (S f) (VSum tag (a :: b :: rows) vals :: q) vs s = encode_queue g f q vs s).
      { destruct a; [destruct b; [destruct rows; [contradiction|]|]|]; reflexivity. }
      rewrite E. apply IH. lia.
  - cbn [encode_queue]. destruct (first _ _) as [l|]; [|discriminate]. destruct (emit l s). apply IH. simpl in L. lia.
  - discriminate.
Qed.

(** ** Counts *)
Scheme spells_mind := Minimality for spells Sort Prop with spell_all_mind := Minimality for spell_all Sort Prop.
Combined Scheme spells_both from spells_mind, spell_all_mind.
Lemma counted_add : forall a b x y, counted a x -> counted b y -> counted (a ++ b) (add x y).
Proof. intros a b x y (A1 & A2 & A3) (B1 & B2 & B3). unfold counted. rewrite bools_app, angles_app, !app_length. simpl. lia. Qed.
Lemma spells_counted : forall ems trs, agree ems trs ->
  (forall v l, spells ems v l -> forall c, typed v -> means trs (type_of v) (Some c) -> counted l c) /\
  (forall vs l, spell_all ems vs l -> forall c, (forall v, In v vs -> typed v) -> row_means trs (map type_of vs) (Some c) -> counted l c).
Proof.
  intros ems trs Ag. apply spells_both.
  - intros tag c T M. simpl in M. inversion M; subst; repeat split.
  - intros ts vals ls Sl IH c T M. simpl in M. apply tuple_inv in M as [Rm _]. inversion T as [? ? ? row Er Em Tv| |]; subst. simpl in Er. injection Er as ->.
    apply IH; [exact Tv|exact Rm].
  - intros e n args p l En c T M. exact (Ag _ _ _ _ _ _ En M).
  - intros c T Rm. simpl in Rm. inversion Rm; subst. repeat split.
  - intros v vs l ls Sv IHv Sl IHl c T Rm. simpl in Rm. inversion Rm as [| |? ? x y M R|]; subst.
    apply counted_add; [apply IHv; [apply T; now left|exact M]|apply IHl; [intros w I; apply T; now right|exact R]].
Qed.
Lemma counted_perm : forall l l' c, Permutation l l' -> counted l c -> counted l' c.
Proof.
  intros l l' c P (A & B & C). assert (Pb : Permutation (bools l) (bools l')) by (unfold bools; now apply Permutation_flat_map).
  assert (Pa : Permutation (angles l) (angles l')) by (unfold angles; now apply Permutation_flat_map).
  unfold counted. rewrite <- (Permutation_length Pb), <- (Permutation_length Pa). auto.
Qed.
Lemma hold_counts : forall l s vs s', hold l s vs s' -> length (t_bits vs) = length (bools l) /\ length (t_params vs) = length (angles l).
Proof. intros l s vs s' H. split; [apply H|]. pose proof (f_equal (@length _) (ho_params _ _ _ _ H)) as E. now rewrite !map_length in E. Qed.
Lemma nth_error_same : forall A (a b : list A), (forall k, nth_error a k = nth_error b k) -> a = b.
Proof.
  induction a as [|x a IH]; intros [|y b] E; [reflexivity|discriminate (E 0)|discriminate (E 0)|].
  pose proof (E 0) as E0. injection E0 as ->. f_equal. apply IH. intros k. exact (E (S k)).
Qed.
Lemma hold_bools : forall l l' s vs s', hold l s vs s' -> hold l' s vs s' -> bools l = bools l'.
Proof.
  intros l l' s vs s' H H'. destruct (ho_set _ _ _ _ H) as (n & E & K & _). destruct (ho_set _ _ _ _ H') as (n' & E' & K' & _).
  rewrite E in E'. apply app_inv_head in E'. subst n'. pose proof (ho_bits _ _ _ _ H) as L. pose proof (ho_bits _ _ _ _ H') as L'.
  apply nth_error_same. intros k. destruct (nth_error (t_bits vs) k) as [i|] eqn:Ei.
  - assert (k < length (t_bits vs)) by (apply nth_error_Some; congruence).
    destruct (nth_error (bools l) k) as [b|] eqn:Eb; [|apply nth_error_None in Eb; lia].
    destruct (nth_error (bools l') k) as [b'|] eqn:Eb'; [|apply nth_error_None in Eb'; lia].
    pose proof (K k i b Ei Eb) as Q. pose proof (K' k i b' Ei Eb') as Q'. f_equal. destruct b, b'; try reflexivity; exfalso.
    + assert (false = true) by (apply Q', Q; reflexivity). discriminate.
    + assert (false = true) by (apply Q, Q'; reflexivity). discriminate.
  - apply nth_error_None in Ei. assert (nth_error (bools l) k = None) as -> by (apply nth_error_None; lia). symmetry. apply nth_error_None. lia.
Qed.
