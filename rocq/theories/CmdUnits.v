(** The linear units of the commands. *)
From Coq Require Import List Bool Arith Lia.
From Verif Require Import CmdSpec CmdModel CmdOrder.
Import ListNotations.

Lemma weqb_spec : forall a b, reflect (a = b) (weqb a b).
Proof.
  intros [a1 a2] [b1 b2]. unfold weqb. simpl. destruct (Nat.eqb_spec a1 b1); destruct (Nat.eqb_spec a2 b2); simpl; constructor; congruence.
Qed.
Definition keys (u : units) : list wire := map fst u.
Lemma in_keys : forall (u : units) w k, In (w, k) u -> In w (keys u).
Proof. intros u w k H. apply in_map_iff. exists (w, k). auto. Qed.
Lemma key_in : forall (u : units) w, In w (keys u) -> exists k, In (w, k) u.
Proof. intros u w H. apply in_map_iff in H. destruct H as ([x k] & E & H). simpl in E. subst. eauto. Qed.
Lemma unit_of_in : forall u w k, NoDup (keys u) -> In (w, k) u -> unit_of u w = Some k.
Proof.
  induction u as [|[x j] u IH]; intros w k N H; [destruct H|]. simpl in *. inversion N as [|? ? Nx Nu]; subst. destruct H as [E|H].
  - injection E as -> ->. destruct (weqb_spec w w); congruence.
  - destruct (weqb_spec x w) as [->|]; [exfalso; apply Nx; eapply in_keys; eauto|auto].
Qed.
Lemma unset_in : forall u w x k, In (x, k) (unset u w) <-> In (x, k) u /\ x <> w.
Proof. intros u w x k. unfold unset. rewrite filter_In. simpl. destruct (weqb_spec x w); simpl; intuition congruence. Qed.
Lemma unset_keys : forall u w x, In x (keys (unset u w)) <-> In x (keys u) /\ x <> w.
Proof.
  intros u w x. split.
  - intro H. apply key_in in H. destruct H as (k & H). apply unset_in in H. destruct H. split; [eapply in_keys; eauto|assumption].
  - intros [H D]. apply key_in in H. destruct H as (k & H). apply (in_keys _ x k). apply unset_in. auto.
Qed.
Lemma unset_nodup : forall u w, NoDup (keys u) -> NoDup (keys (unset u w)).
Proof.
  intros u w N. unfold unset, keys in *. induction u as [|[x k] u IH]; simpl in *; [constructor|]. inversion N as [|? ? Nx Nu]; subst. destruct (weqb_spec x w); simpl; [auto|]. constructor; [|auto].
  intro K. apply Nx. apply in_map_iff in K. destruct K as (e & E & K). apply filter_In in K. apply in_map_iff. exists e. tauto.
Qed.
Lemma unset_vals : forall u w, NoDup (map snd u) -> NoDup (map snd (unset u w)).
Proof.
  intros u w N. unfold unset in *. induction u as [|[x k] u IH]; simpl in *; [constructor|]. inversion N as [|? ? Nx Nu]; subst. destruct (weqb_spec x w); simpl; [auto|]. constructor; [|auto].
  intro K. apply Nx. apply in_map_iff in K. destruct K as (e & E & K). apply filter_In in K. apply in_map_iff. exists e. tauto.
Qed.
Lemma unset_absent : forall u w, ~ In w (keys u) -> unset u w = u.
Proof.
  intros u w H. unfold unset. induction u as [|[x k] u IH]; [reflexivity|]. simpl in *. destruct (weqb_spec x w) as [->|]; simpl; [exfalso; auto|]. rewrite IH; auto.
Qed.
Lemma unset_length : forall u w, NoDup (keys u) -> In w (keys u) -> S (length (unset u w)) = length u.
Proof.
  intros u w N H. unfold keys in *. induction u as [|[x k] u IH]; [destruct H|]. simpl in *. inversion N as [|? ? Nx Nu]; subst. unfold unset in *. simpl. destruct (weqb_spec x w) as [->|D]; simpl.
  - fold (unset u w). rewrite unset_absent; [reflexivity|assumption].
  - destruct H as [E|H]; [congruence|]. rewrite IH; auto.
Qed.

Definition bounded (u : units) : Prop := forall k, In k (map snd u) -> k < length u.
Lemma fresh_ok : forall o u, NoDup (keys u) -> NoDup o -> (forall w, In w o -> ~ In w (keys u)) ->
  exists u' b, fresh_units u o = (u', b) /\ length b = length o /\ NoDup (keys u') /\
    (forall w k, In (w, k) u' <-> In (w, k) u \/ In (w, k) (combine o b)) /\
    (NoDup (map snd u) -> bounded u -> NoDup (map snd u') /\ bounded u').
Proof.
  induction o as [|w o IH]; intros u N No D.
  - exists u, []. simpl. repeat (split; [auto|]); [|auto]. intros; tauto.
  - inversion No as [|? ? Nw No']; subst. simpl. unfold set_unit. rewrite (unset_absent u w) by (apply D; left; reflexivity).
    destruct (IH ((w, length u) :: u)) as (u' & b & E & L & N' & C & B).
    + simpl. constructor; [apply D; left; reflexivity|assumption].
    + assumption.
    + intros x Hx. simpl. intros [<-|K]; [contradiction|]. apply (D x); [right; assumption|assumption].
    + rewrite E. exists u', (length u :: b). split; [reflexivity|]. split; [simpl; congruence|]. split; [assumption|]. split.
      * intros x k. rewrite C. simpl. tauto.
      * intros Nv Bv. apply B; simpl.
        -- constructor; [|assumption]. intro K. apply Bv in K. lia.
        -- intros k K. simpl in K. simpl. destruct K as [<-|K]; [lia|]. apply Bv in K. lia.
Qed.
Lemma zip_ok : forall i u o, NoDup (keys u) -> NoDup i -> NoDup o -> (forall w, In w i -> In w (keys u)) -> (forall w, In w o -> ~ In w (keys u)) ->
  exists u' a b, zip_units u i o = (u', a, b) /\ length a = length i /\ length b = length o /\ Forall2 (fun w k => In (w, k) u) i a /\
    (forall j, j < length i -> j < length o -> nth_error b j = nth_error a j) /\ NoDup (keys u') /\
    (forall w k, In (w, k) u' <-> In (w, k) u /\ ~ In w i \/ In (w, k) (combine o b)) /\
    (NoDup (map snd u) -> length o <= length i -> NoDup (map snd u')) /\
    (NoDup (map snd u) -> bounded u -> length i <= length o -> NoDup (map snd u') /\ bounded u').
Proof.
  induction i as [|v i IH]; intros u o N Ni No Hi Ho.
  - simpl. destruct (fresh_ok o u N No Ho) as (u' & b & E & L & N' & C & B). rewrite E. exists u', [], b. split; [reflexivity|]. split; [reflexivity|]. split; [assumption|]. split; [constructor|].
    split; [intros j J; simpl in J; lia|]. split; [assumption|]. split; [intros w k; rewrite C; simpl; tauto|]. split; [|auto].
    intros Nv Le. destruct o; [|simpl in Le; lia]. simpl in E. injection E as <- <-. assumption.
  - inversion Ni as [|? ? Nv Ni']; subst. assert (Kv : In v (keys u)) by (apply Hi; left; reflexivity). pose proof (key_in u v Kv) as (k & Hk). pose proof (unit_of_in u v k N Hk) as Ek.
    assert (Hi' : forall w, In w i -> In w (keys (unset u v))). { intros w Hw. apply unset_keys. split; [apply Hi; right; assumption|]. intros ->. contradiction. }
    destruct o as [|w o]; cbn [zip_units]; rewrite Ek.
    + destruct (IH (unset u v) [] (unset_nodup u v N) Ni' No Hi') as (u' & a & b & E & La & Lb & F & Pj & N' & C & V1 & V2); [intros w []|].
      rewrite E. exists u', (k :: a), b. split; [reflexivity|]. split; [simpl; congruence|]. split; [assumption|]. split; [constructor; [assumption|]|].
      { clear - F. induction F as [|x y i a Hxy F IHF]; constructor; [apply unset_in in Hxy; tauto|assumption]. }
      split; [intros j _ J; simpl in J; lia|]. split; [assumption|]. split; [|split].
      * intros x j. rewrite C, unset_in. simpl. intuition congruence.
      * intros Nw _. apply V1; [apply unset_vals; assumption|simpl; lia].
      * intros _ _ Le. simpl in Le. lia.
    + inversion No as [|? ? Nw No']; subst.
      assert (Kw : ~ In w (keys (unset u v))). { rewrite unset_keys. intros [K _]. apply (Ho w); [left; reflexivity|assumption]. }
      unfold set_unit. rewrite (unset_absent (unset u v) w Kw).
      assert (Vw : v <> w) by (intros ->; apply (Ho w); [left; reflexivity|assumption]).
      destruct (IH ((w, k) :: unset u v) o) as (u' & a & b & E & La & Lb & F & Pj & N' & C & V1 & V2).
      * simpl. constructor; [assumption|apply unset_nodup; assumption].
      * assumption.
      * assumption.
      * intros x Hx. simpl. right. apply Hi'. assumption.
      * intros x Hx. simpl. intros [<-|K]; [contradiction|]. apply unset_keys in K. destruct K as [K _]. apply (Ho x); [right; assumption|assumption].
      * rewrite E. exists u', (k :: a), (k :: b). split; [reflexivity|]. split; [simpl; congruence|]. split; [simpl; congruence|]. split; [constructor; [assumption|]|].
        { assert (Fi : forall x y, In x i -> In (x, y) ((w, k) :: unset u v) -> In (x, y) u).
          { intros x y Hx [Q|Q]; [injection Q as <- <-|apply unset_in in Q; tauto]. exfalso. apply (Ho w); [left; reflexivity|]. apply Hi. right. assumption. }
          clear - F Fi. induction F as [|x y i a Hxy F IHF]; constructor; [apply Fi; [left; reflexivity|assumption]|]. apply IHF. intros z t Hz. apply Fi. right. assumption. }
        split; [intros [|j] J1 J2; simpl; [reflexivity|apply Pj; simpl in J1, J2; lia]|]. split; [assumption|]. split; [|split].
        -- intros x j. rewrite C. simpl. rewrite unset_in. assert (Wi : ~ In w i) by (intro K; apply (Ho w); [left; reflexivity|apply Hi; right; assumption]).
           split.
           ++ intros [[[Q|[Q1 Q2]] Q3]|Q]; [right; left; assumption|left; split; [assumption|]; intros [K|K]; congruence || contradiction|right; right; assumption].
           ++ intros [[Q1 Q2]|[Q|Q]]; [left; split; [right; split; [assumption|intros ->; apply Q2; left; reflexivity]|intro; apply Q2; right; assumption]| |right; assumption].
              left. split; [left; assumption|]. injection Q as <- <-. assumption.
        -- assert (Nk : NoDup (map snd u) -> NoDup (map snd ((w, k) :: unset u v))).
           { intro Nu. simpl. constructor; [|apply unset_vals; assumption]. intro K. apply in_map_iff in K. destruct K as ([x j] & Ej & K). simpl in Ej. subst j. apply unset_in in K. destruct K as [K D].
             apply D. clear - Nu K Hk. induction u as [|[y z] u IH]; [destruct K|]. simpl in *. inversion Nu as [|? ? Nz Nu']; subst. destruct K as [K|K], Hk as [H|H]; [congruence| | |auto].
             - injection K as -> ->. exfalso. apply Nz. apply in_map_iff. exists (v, k). auto.
             - injection H as -> ->. exfalso. apply Nz. apply in_map_iff. exists (x, k). auto. }
           intros Nu Le. apply V1; [auto|simpl in Le; lia].
        -- intros Nu Bu Le. assert (Lu : length ((w, k) :: unset u v) = length u) by (simpl; apply unset_length; assumption). apply V2.
           ++ simpl. constructor; [|apply unset_vals; assumption]. intro K. apply in_map_iff in K. destruct K as ([x j] & Ej & K). simpl in Ej. subst j. apply unset_in in K. destruct K as [K D].
              apply D. clear - Nu K Hk. induction u as [|[y z] u IH]; [destruct K|]. simpl in *. inversion Nu as [|? ? Nz Nu']; subst. destruct K as [K|K], Hk as [H|H]; [congruence| | |auto].
              ** injection K as -> ->. exfalso. apply Nz. apply in_map_iff. exists (v, k). auto.
              ** injection H as -> ->. exfalso. apply Nz. apply in_map_iff. exists (x, k). auto.
           ++ intros j Hj. rewrite Lu. apply Bu. simpl in Hj. destruct Hj as [<-|Hj]; [apply in_map_iff; exists (v, k); auto|]. apply in_map_iff in Hj. destruct Hj as ([x z] & <- & Hj). apply unset_in in Hj. apply in_map_iff. exists (x, z). tauto.
           ++ simpl in Le. lia.
Qed.

Lemma linear_ports_in : forall id l p w, In w (linear_ports id p l) -> fst w = id /\ p <= snd w.
Proof. induction l as [|b l IH]; intros p w H; [destruct H|]. simpl in H. destruct b; [destruct H as [<-|H]; [simpl; lia|]|]; apply IH in H; lia. Qed.
Lemma linear_outs_nodup : forall n, NoDup (linear_outs n).
Proof.
  intro n. unfold linear_outs. generalize 0. induction (outs n) as [|b l IH]; intro p; simpl; [constructor|]. destruct b; [|apply IH]. constructor; [|apply IH]. intro K. apply linear_ports_in in K. simpl in K. lia.
Qed.
Lemma linear_outs_id : forall n w, In w (linear_outs n) -> fst w = nid n.
Proof. intros n w H. apply linear_ports_in in H. tauto. Qed.

Section Units.
Variables (g outer : list node).
Hypothesis R : region_ok g outer.
Notation process := (process g).
Lemma combine_keys : forall (A B : Type) (l : list A) (l' : list B) x y, In (x, y) (combine l l') -> In x l.
Proof. intros. eapply in_combine_l; eauto. Qed.

(** A list of nodes that can be processed: each once, each after those that feed it. *)
Definition feasible (l : list nat) : Prop :=
  NoDup l /\ (forall n, In n l -> In n (map nid g)) /\
  forall l1 n l2 m, l = l1 ++ nid n :: l2 -> In n g -> In m g -> In (nid m) (preds n) -> In (nid m) l1.
Definition inputs_label : units := flat_map (fun n => match ntag n with TInput => combine (linear_outs n) (seq 0 (length (linear_outs n))) | _ => [] end) g.
Lemma inputs_eq : inputs_label = input_units g.
Proof.
  destruct R as (N & (i & o & Hi & Ho & Ti & To & Ii & Oo & Ui & Uo) & _). unfold inputs_label, input_units.
  assert (N' : NoDup (map nid g)) by (eapply Ng; eauto). clear - Hi Ti Ui N'. induction g as [|n l IH]; [destruct Hi|]. simpl in *. inversion N' as [|? ? Nn Nl]; subst.
  destruct (ntag n) eqn:Tn.
  - assert (n = i) by (apply Ui; auto). subst i.
    assert (K : flat_map (fun n0 => match ntag n0 with TInput => combine (linear_outs n0) (seq 0 (length (linear_outs n0))) | _ => [] end) l = []).
    { clear - Ui Nn. induction l as [|m l IH]; [reflexivity|]. simpl in *. assert (Z : ntag m <> TInput). { intro Q. apply Nn. left. f_equal. apply Ui; auto. }
      destruct (ntag m); try contradiction; apply IH; try (intro; apply Nn; auto); intros x Hx; apply Ui; tauto. }
    rewrite K, app_nil_r. reflexivity.
  - destruct Hi as [->|Hi]; [congruence|]. apply IH; auto.
  - destruct Hi as [->|Hi]; [congruence|]. apply IH; auto.
  - destruct Hi as [->|Hi]; [congruence|]. apply IH; auto.
Qed.

(** Commands so far, for the nodes [done]. *)
Definition of_nodes (done : list nat) (cs : list command) : Prop :=
  (forall c, In c cs -> In (cnode c) g /\ is_io (cnode c) = false /\ In (nid (cnode c)) done) /\
  (forall n, In n g -> is_io n = false -> In (nid n) done -> exists c, In c cs /\ cnode c = n).
Definition threaded (cs0 cs : list command) : Prop :=
  forall l1 c l2, cs = l1 ++ c :: l2 ->
    length (cin c) = length (linear_ins (cnode c)) /\ length (cout c) = length (linear_outs (cnode c)) /\
    Forall2 (fun w k => live g (cs0 ++ l1) w k) (linear_ins (cnode c)) (cin c) /\
    (forall j, j < length (cin c) -> j < length (cout c) -> nth_error (cout c) j = nth_error (cin c) j).
Definition Uinv (done : list nat) (cs : list command) (u : units) : Prop :=
  NoDup (keys u) /\ of_nodes done cs /\ (forall w k, In (w, k) u <-> live g cs w k) /\
  (forall c, In c cs -> length (cout c) = length (linear_outs (cnode c))) /\
  (forall c m, In c cs -> In m g -> In (nid m) (preds (cnode c)) -> In (nid m) done).

Lemma linear_src : forall n w, In n g -> In w (linear_ins n) -> In (fst w) (preds n).
Proof.
  intros n w Hn Hw. unfold linear_ins in Hw. apply in_map_iff in Hw. destruct Hw as ([b x] & E & Hw). simpl in E. subst x. apply filter_In in Hw. unfold preds. apply in_or_app. left. apply in_map_iff. exists (b, w). tauto.
Qed.
Lemma labels_app : forall cs cs', labels g (cs ++ cs') = labels g cs ++ flat_map (fun c => combine (linear_outs (cnode c)) (cout c)) cs'.
Proof. intros. unfold labels. rewrite flat_map_app, app_assoc. reflexivity. Qed.
Lemma labels_src : forall cs w k, In (w, k) (labels g cs) -> (exists i, In i g /\ ntag i = TInput /\ In w (linear_outs i)) \/ exists c, In c cs /\ In w (linear_outs (cnode c)).
Proof.
  intros cs w k H. unfold labels in H. apply in_app_or in H. destruct H as [H|H]; apply in_flat_map in H; destruct H as (x & Hx & H).
  - left. exists x. destruct (ntag x); try destruct H. split; [assumption|]. split; [reflexivity|]. eapply combine_keys; eauto.
  - right. exists x. split; [assumption|]. eapply combine_keys; eauto.
Qed.
Lemma ins_disjoint : forall m n w, In m g -> In n g -> In w (linear_ins m) -> In w (linear_ins n) -> m = n.
Proof.
  destruct R as (N & _ & _ & _ & L). assert (N' : NoDup (map nid g)) by (eapply Ng; eauto). clear - L. intros m n w Hm Hn Wm Wn.
  induction g as [|x l IH]; [destruct Hm|]. simpl in L. assert (Z : forall y, In y l -> In w (linear_ins x) -> In w (linear_ins y) -> False).
  { intros y Hy Wx Wy. assert (K : In w (flat_map linear_ins l)) by (apply in_flat_map; eauto). clear - L Wx K. induction (linear_ins x) as [|a b IHb]; [destruct Wx|]. simpl in L. inversion L as [|? ? La Lb]; subst. destruct Wx as [->|Wx]; [apply La; apply in_or_app; auto|auto]. }
  destruct Hm as [->|Hm], Hn as [->|Hn]; [reflexivity|exfalso; eapply Z; eauto|exfalso; eapply Z; eauto|]. apply IH; try assumption. clear - L. induction (linear_ins x) as [|a b IHb]; [assumption|]. simpl in L. inversion L; auto.
Qed.
Lemma ins_nodup : forall n, In n g -> NoDup (linear_ins n).
Proof.
  destruct R as (_ & _ & _ & _ & L). clear - L. intros n Hn. induction g as [|x l IH]; [destruct Hn|]. simpl in L. destruct Hn as [->|Hn].
  - clear - L. induction (linear_ins n) as [|a b IHb]; [constructor|]. simpl in L. inversion L as [|? ? La Lb]; subst. constructor; [|auto]. intro. apply La. apply in_or_app. auto.
  - apply IH; [|assumption]. clear - L. induction (linear_ins x) as [|a b IHb]; [assumption|]. simpl in L. inversion L; auto.
Qed.

(** One more node. *)
Lemma step_ok : forall done cs u n, Uinv done cs u -> In n g -> is_io n = false -> ~ In (nid n) done ->
  (forall m, In m g -> In (nid m) (preds n) -> In (nid m) done) -> (exists i, In i g /\ ntag i = TInput) ->
  (forall m w, In m g -> In w (linear_outs m) -> In w (linear_ins n) -> ntag m <> TOutput) ->
  exists u' a b, zip_units u (linear_ins n) (linear_outs n) = (u', a, b) /\ length a = length (linear_ins n) /\ length b = length (linear_outs n) /\
    Forall2 (fun w k => live g cs w k) (linear_ins n) a /\ (forall j, j < length a -> j < length b -> nth_error b j = nth_error a j) /\
    Uinv (nid n :: done) (cs ++ [{| cnode := n; cin := a; cout := b |}]) u' /\
    (NoDup (map snd u) -> length (linear_outs n) <= length (linear_ins n) -> NoDup (map snd u')) /\
    (NoDup (map snd u) -> bounded u -> length (linear_ins n) <= length (linear_outs n) -> NoDup (map snd u') /\ bounded u').
Proof.
  intros done cs u n (U1 & (O1 & O2) & U2 & U3 & U4) Hn Io Nd Pn _ NO.
  destruct R as (N & RI & RC & RL & RN).
  assert (Same : forall a b, In a g -> In b g -> nid a = nid b -> a = b) by (intros; eapply same_node; eauto).
  destruct (zip_ok (linear_ins n) u (linear_outs n)) as (u' & a & b & E & La & Lb & F & Pj & N' & C & V1 & V2).
  - assumption.
  - apply ins_nodup. assumption.
  - apply linear_outs_nodup.
  - intros w Hw. destruct (RL n w Hn Hw) as (m & Hm & Wm). pose proof (linear_outs_id m w Wm) as Em. assert (Dm : In (nid m) done) by (apply Pn; [assumption|]; rewrite <- Em; apply linear_src; assumption).
    assert (Q : exists k, In (w, k) (labels g cs)).
    { destruct (is_io m) eqn:Im.
      - assert (Tm : ntag m = TInput). { unfold is_io in Im. pose proof (NO m w Hm Wm Hw). destruct (ntag m); try discriminate; [reflexivity|congruence]. }
        apply In_nth_error in Wm. destruct Wm as (j & Wm). exists j. unfold labels. apply in_or_app. left. apply in_flat_map. exists m. split; [assumption|]. rewrite Tm.
        assert (J : j < length (linear_outs m)) by (apply nth_error_Some; congruence).
        assert (Z : forall (l : list wire) s j, nth_error l j = Some w -> In (w, s + j) (combine l (seq s (length l)))).
        { clear. induction l as [|x l IH]; intros s [|j] H; try discriminate; simpl in *; [injection H as ->; left; f_equal; lia|]. right. replace (s + S j) with (S s + j) by lia. apply IH. assumption. }
        apply (Z _ 0 j Wm).
      - destruct (O2 m Hm Im Dm) as (c & Hc & Ec). pose proof (U3 c Hc) as Lc. rewrite Ec in Lc. apply In_nth_error in Wm. destruct Wm as (j & Wm).
        assert (J : j < length (linear_outs m)) by (apply nth_error_Some; congruence). rewrite <- Lc in J. apply nth_error_Some in J. destruct (nth_error (cout c) j) as [k|] eqn:Ek; [|congruence].
        exists k. unfold labels. apply in_or_app. right. apply in_flat_map. exists c. split; [assumption|]. rewrite Ec. clear - Wm Ek. revert j Wm Ek. generalize (linear_outs m), (cout c). induction l as [|x l IH]; intros [|y l'] [|j] A B; try discriminate; simpl in *; [injection A as ->; injection B as ->; auto|]. right. eapply IH; eauto. }
    destruct Q as (k & Q). apply (in_keys u w k). apply U2. split; [assumption|]. intros c Hc K. destruct (O1 c Hc) as (A & _ & B). assert (cnode c = n) by (eapply ins_disjoint; eauto). congruence.
  - intros w Hw K. apply key_in in K. destruct K as (k & K). apply U2 in K. destruct K as [K _]. apply labels_src in K. apply linear_outs_id in Hw. destruct K as [(i & Hi & Ti & Wi)|(c & Hc & Wc)].
    + apply linear_outs_id in Wi. assert (i = n) by (apply Same; [assumption|assumption|congruence]). subst i. unfold is_io in Io. rewrite Ti in Io. discriminate.
    + apply linear_outs_id in Wc. destruct (O1 c Hc) as (A & _ & B). rewrite <- Wc, Hw in B. contradiction.
  - exists u', a, b. rewrite E. split; [reflexivity|]. split; [assumption|]. split; [assumption|]. split; [|split; [intros j J1 J2; apply Pj; congruence|split; [|split; assumption]]].
    + clear - F U2. induction F as [|w k i a H F IH]; constructor; [apply U2; assumption|assumption].
    + set (c := {| cnode := n; cin := a; cout := b |}).
      split; [assumption|]. split; [split|split; [|split]].
      * intros d Hd. apply in_app_or in Hd. destruct Hd as [Hd|[<-|[]]]; [destruct (O1 d Hd) as (A & B & D); simpl; auto|simpl; auto].
      * intros m Hm Im Dm. destruct Dm as [Dm|Dm]; [assert (m = n) by (apply Same; auto); subst m; exists c; split; [apply in_or_app; right; left; reflexivity|reflexivity]|]. destruct (O2 m Hm Im Dm) as (d & Hd & Ed). exists d. split; [apply in_or_app; auto|assumption].
      * intros w k. rewrite C. unfold live. rewrite labels_app, in_app_iff. simpl. rewrite app_nil_r. split.
        -- intros [[A B]|A].
           ++ apply U2 in A. destruct A as [A1 A2]. split; [auto|]. intros d Hd. apply in_app_or in Hd. destruct Hd as [Hd|[<-|[]]]; [auto|assumption].
           ++ split; [auto|]. pose proof (combine_keys _ _ _ _ _ _ A) as Wn. intros d Hd K.
              destruct (RL (cnode d) w) as (m & Hm & Wm); [apply in_app_or in Hd; destruct Hd as [Hd|[<-|[]]]; [apply (O1 d Hd)|assumption]|assumption|].
              assert (Dg : In (cnode d) g) by (apply in_app_or in Hd; destruct Hd as [Hd|[<-|[]]]; [apply (O1 d Hd)|assumption]).
              assert (S1 : In (fst w) (preds (cnode d))) by (apply linear_src; assumption). apply linear_outs_id in Wn. rewrite Wn in S1.
              apply in_app_or in Hd. destruct Hd as [Hd|[<-|[]]].
              ** apply Nd. eapply U4; eauto.
              ** simpl in S1. apply Nd, Pn; assumption.
        -- intros [[A|A] B]; [left|right; assumption]. split; [apply U2; split; [assumption|intros d Hd; apply B, in_or_app; auto]|]. apply (B c). apply in_or_app. right. left. reflexivity.
      * intros d Hd. apply in_app_or in Hd. destruct Hd as [Hd|[<-|[]]]; [auto|simpl; assumption].
      * intros d m Hd Hm Pm. apply in_app_or in Hd. destruct Hd as [Hd|[<-|[]]]; right; [eapply U4; eauto|apply Pn; assumption].
Qed.

Lemma inputs_ok : Uinv [] [] (input_units g) /\ NoDup (map snd (input_units g)) /\ bounded (input_units g).
Proof.
  assert (Z : forall (l : list wire) s, map fst (combine l (seq s (length l))) = l /\ map snd (combine l (seq s (length l))) = seq s (length l)).
  { induction l as [|x l IH]; intro s; [auto|]. simpl. destruct (IH (S s)) as [-> ->]. auto. }
  split; [split; [|split; [split|split; [|split]]]|split].
  - unfold input_units, keys. destruct (find _ g) as [i|]; [|constructor]. destruct (Z (linear_outs i) 0) as [-> _]. apply linear_outs_nodup.
  - intros c [].
  - intros n _ _ [].
  - intros w k. rewrite <- inputs_eq. unfold live, labels, inputs_label. rewrite app_nil_r. split; [intro H; split; [assumption|intros c []]|tauto].
  - intros c [].
  - intros c m [].
  - unfold input_units. destruct (find _ g) as [i|]; [|constructor]. destruct (Z (linear_outs i) 0) as [_ ->]. apply seq_NoDup.
  - unfold input_units, bounded. destruct (find _ g) as [i|]; [|intros k []]. destruct (Z (linear_outs i) 0) as [_ ->]. intros k K. apply in_seq in K. rewrite combine_length, seq_length. lia.
Qed.

Definition distinct (cs : list command) : Prop := forall w w' k, live g cs w k -> live g cs w' k -> w = w'.
Lemma vals_distinct : forall done cs u, Uinv done cs u -> NoDup (map snd u) -> distinct cs.
Proof.
  intros done cs u (_ & _ & U & _) N w w' k H H'. apply U in H. apply U in H'. clear - N H H'. induction u as [|[x j] u IH]; [destruct H|]. simpl in N. inversion N as [|? ? Nj Nu]; subst.
  destruct H as [E|H], H' as [E'|H']; [congruence| | |auto].
  - injection E as -> ->. exfalso. apply Nj. apply in_map_iff. exists (w', k). auto.
  - injection E' as -> ->. exfalso. apply Nj. apply in_map_iff. exists (w, k). auto.
Qed.
Lemma process_ok : forall l done cs u, Uinv done cs u -> NoDup l -> (forall n, In n l -> ~ In n done) -> (forall n, In n l -> In n (map nid g)) ->
  (forall l1 n l2 m, l = l1 ++ nid n :: l2 -> In n g -> In m g -> In (nid m) (preds n) -> In (nid m) (l1 ++ done)) ->
  exists cs', process u l = Some cs' /\
    (exists keep, map (fun c => nid (cnode c)) cs' = filter keep l /\ forall n, In n g -> keep (nid n) = negb (is_io n)) /\ (forall c, In c cs' -> In (cnode c) g /\ is_io (cnode c) = false) /\
    threaded cs cs' /\
    (NoDup (map snd u) -> bounded u \/ (forall c, In c cs' -> ~ allocates (cnode c)) -> no_alloc_after_free (map cnode cs') ->
       forall l1 l2, cs' = l1 ++ l2 -> distinct (cs ++ l1)).
Proof.
  pose proof R as (N & (i & o & Hi & Ho & Ti & To & Ii & Oo & Ui & Uo) & RC & RL & RN).
  set (keep := fun k => existsb (fun m => (nid m =? k) && negb (is_io m)) g).
  assert (Ek : forall n, In n g -> keep (nid n) = negb (is_io n)).
  { intros n Hn. unfold keep. destruct (existsb _ g) eqn:E.
    - apply existsb_exists in E. destruct E as (m & Hm & E). apply andb_prop in E. destruct E as [E1 E2]. apply Nat.eqb_eq in E1. rewrite <- (same_node g outer N m n Hm Hn E1). auto.
    - destruct (negb (is_io n)) eqn:I; [|reflexivity]. rewrite <- E. apply existsb_exists. exists n. rewrite Nat.eqb_refl, I. auto. }
  assert (Main : forall l done cs u, Uinv done cs u -> NoDup l -> (forall n, In n l -> ~ In n done) -> (forall n, In n l -> In n (map nid g)) ->
    (forall l1 n l2 m, l = l1 ++ nid n :: l2 -> In n g -> In m g -> In (nid m) (preds n) -> In (nid m) (l1 ++ done)) ->
    exists cs', process u l = Some cs' /\ map (fun c => nid (cnode c)) cs' = filter keep l /\ (forall c, In c cs' -> In (cnode c) g /\ is_io (cnode c) = false) /\
    threaded cs cs' /\
    (NoDup (map snd u) -> bounded u \/ (forall c, In c cs' -> ~ allocates (cnode c)) -> no_alloc_after_free (map cnode cs') ->
       forall l1 l2, cs' = l1 ++ l2 -> distinct (cs ++ l1))).
  { induction l as [|k l IH]; intros done cs u U Nl D G P.
    - exists []. split; [reflexivity|]. split; [reflexivity|]. split; [intros c []|]. split.
      + intros l1 d l2 E. destruct l1; discriminate.
      + intros Nv _ _ [|? l1] l2 E; [|discriminate]. rewrite app_nil_r. eapply vals_distinct; eauto.
    - inversion Nl as [|? ? Nk Nl']; subst. assert (Gk : In k (map nid g)) by (apply G; left; reflexivity). apply in_map_iff in Gk. destruct Gk as (n & <- & Hn). cbn [CmdModel.process]. rewrite (find_g g outer N n Hn).
      assert (Pn : forall m, In m g -> In (nid m) (preds n) -> In (nid m) done) by (intros m Hm Pm; apply (P [] n l m eq_refl Hn Hm Pm)).
      assert (D' : forall x, In x l -> ~ In x (nid n :: done)) by (intros x Hx [<-|K]; [contradiction|apply (D x); [right; assumption|assumption]]).
      assert (G' : forall x, In x l -> In x (map nid g)) by (intros x Hx; apply G; right; assumption).
      assert (P' : forall l1 x l2 m, l = l1 ++ nid x :: l2 -> In x g -> In m g -> In (nid m) (preds x) -> In (nid m) (l1 ++ nid n :: done)).
      { intros l1 x l2 m E Hx Hm Pm. specialize (P (nid n :: l1) x l2 m (f_equal (cons (nid n)) E) Hx Hm Pm). apply in_or_app. simpl in P. destruct P as [P|P]; [right; left; assumption|]. apply in_app_or in P. simpl. tauto. }
      cbn [filter]. rewrite (Ek n Hn). destruct (is_io n) eqn:Io.
      + apply (IH (nid n :: done)); try assumption. destruct U as (U1 & (O1 & O2) & U2 & U3 & U4). split; [assumption|]. split; [split|split; [assumption|split; [assumption|]]].
        * intros c Hc. destruct (O1 c Hc) as (A & B & C). simpl. auto.
        * intros m Hm Im [E|Dm]; [|auto]. assert (m = n) by (eapply same_node; eauto). subst m. congruence.
        * intros c m Hc Hm Pm. right. eapply U4; eauto.
      + destruct (step_ok done cs u n U Hn Io (D _ (or_introl eq_refl)) Pn) as (u' & a & b & E & La & Lb & F & Pj & U' & V1 & V2).
        * exists i. auto.
        * intros m w Hm Wm _ Tm. rewrite (Uo m Hm Tm) in Wm. unfold linear_outs in Wm. rewrite Oo in Wm. destruct Wm.
        * rewrite E. destruct (IH _ _ _ U' Nl' D' G' P') as (cs' & E' & M & I & T & X). rewrite E'. set (c := {| cnode := n; cin := a; cout := b |}) in *.
          exists (c :: cs'). split; [reflexivity|]. split; [simpl; rewrite M; reflexivity|]. split; [intros d [<-|Hd]; [simpl; auto|auto]|]. split.
          -- intros [|d l1] e l2 Ee; simpl in Ee.
             ++ injection Ee as <- <-. rewrite app_nil_r. simpl. auto.
             ++ injection Ee as <- ->. specialize (T l1 e l2 eq_refl). rewrite <- app_assoc in T. exact T.
          -- intros Nv Bv NA [|d l1] l2 Ee.
             ++ rewrite app_nil_r. eapply vals_distinct; eauto.
             ++ simpl in Ee. injection Ee as <- Ee. replace (cs ++ c :: l1) with ((cs ++ [c]) ++ l1) by (rewrite <- app_assoc; reflexivity).
                assert (NA' : no_alloc_after_free (map cnode cs')).
                { intros m1 x m2 f Em Ax Hf. apply (NA (n :: m1) x m2 f); [simpl; rewrite Em; reflexivity|assumption|right; assumption]. }
                assert (Rest : frees n -> forall d, In d cs' -> ~ allocates (cnode d)).
                { intros Fn d Hd Ad. apply in_split in Hd. destruct Hd as (m1 & m2 & ->). apply (NA (n :: map cnode m1) (cnode d) (map cnode m2) n); [simpl; rewrite map_app; reflexivity|assumption|left; reflexivity|assumption]. }
                assert (Q : NoDup (map snd u') /\ (bounded u' \/ (forall d, In d cs' -> ~ allocates (cnode d)))).
                { destruct Bv as [Bv|Bv].
                  - destruct (le_lt_dec (length (linear_ins n)) (length (linear_outs n))) as [L|L].
                    + destruct (V2 Nv Bv L). auto.
                    + split; [apply V1; [assumption|lia]|]. right. apply Rest. exact L.
                  - split; [|right; intros d Hd; apply Bv; right; assumption]. apply V1; [assumption|]. specialize (Bv c (or_introl eq_refl)). unfold allocates in Bv. simpl in Bv. lia. }
                destruct Q as [Q1 Q2]. eapply X; eauto. }
  intros l done cs u U Nl D G P. destruct (Main l done cs u U Nl D G P) as (cs' & A & B & C). exists cs'. split; [assumption|]. split; [exists keep; auto|assumption].
Qed.
End Units.
