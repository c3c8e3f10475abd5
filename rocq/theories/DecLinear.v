(** Proofs about the pytket decoder: wires are made before they are used, and qubits are used once. *)
From Coq Require Import List Bool Arith Lia.
From Verif Require Import EncSpec DecSpec DecModel DecProofs DecStep DecFull.
Import ListNotations.

Lemma in_outs to : forall n j c, j < length to -> (In (n + j, c) (combine (seq n (length to)) (map count_or_default to)) <-> c = count_or_default (nth j to TQ)).
Proof.
  induction to as [|t l IH]; intros n j c L; [simpl in L; lia|]. cbn [length seq map combine]. destruct j as [|j].
  - rewrite Nat.add_0_r. cbn [nth]. split; [|intros ->; now left]. intros [H|H]; [congruence|]. apply in_combine_l in H. apply in_seq in H. lia.
  - cbn [nth]. rewrite <- (IH (S n) j c) by (simpl in L; lia). replace (n + S j) with (S n + j) by lia. split; [intros [H|H]; [injection H; lia|exact H]|intros H; now right].
Qed.
Lemma forall_seq {A} (Q : nat -> A -> Prop) d l : forall n, (forall j, j < length l -> Q (n + j) (nth j l d)) -> Forall2 Q (seq n (length l)) l.
Proof.
  induction l as [|a l IH]; intros n H; cbn [length seq]; constructor.
  - specialize (H 0). rewrite Nat.add_0_r in H. apply H. simpl; lia.
  - apply IH. intros j L. replace (S n + j) with (n + S j) by lia. apply (H (S j)). simpl; lia.
Qed.

Section Linear.
Variables Op E : Type.
Variable inp : list (wire * count).
Variables read_op make_op : Op.
Definition run0 : Op -> list unit -> list unit -> list unit -> list unit * list unit := fun _ _ _ _ => ([], []).
Definition prun0 : Op -> list unit -> list unit := fun _ l => l.
Definition den0 : E -> unit := fun _ => tt.
Notation state := (state Op E).
Notation Inv := (Inv Op E unit unit tt).
Notation same_keys := (same_keys Op E).
Notation good_args := (good_args Op E).
Notation track_one := (track_one Op E).
Notation frame := (frame Op E).
Definition R0 : DecSpec.regs unit := fun _ _ => tt.
(** The part of the invariant that does not depend on values. *)
Definition str (st : state) : Prop := exists e, Inv st e R0.

Lemma inv_cons st (e : env unit unit) w x : ~ In w (map fst (s_wires st)) -> Inv st e R0 -> Inv st ((w, x) :: e) R0.
Proof.
  intros N [A B C D F G]. constructor; auto. intros k r id y H1 H2 H3. destruct (G k r id y H1 H2 H3) as [(w' & d' & X & Y & Z)|X]; [left|right; auto].
  exists w', d'. split; auto. split; auto. cbn [look]. destruct (Nat.eqb_spec w w') as [Q|]; [|auto]. subst. exfalso. apply N. apply in_map_iff. exists (w', d'). auto.
Qed.
Lemma str_track st k w t r : str st -> w < s_next st -> ~ In w (map fst (s_wires st)) -> fits t k -> str (track_one st k w t r).
Proof.
  intros [e I] L N F. exists ((w, single unit unit k tt) :: e). eapply inv_ext; [|apply inv_track_one with (v := tt) (R := R0); auto].
  - intros k' r'. destruct (put_reg _ _ _ _ _ _), (R0 k' r'); reflexivity.
  - apply inv_cons; auto.
  - cbn [look]. rewrite Nat.eqb_refl. reflexivity.
Qed.
Lemma str_same (st st' : state) : str st -> s_wires st' = s_wires st -> s_elems st' = s_elems st -> s_latest st' = s_latest st -> s_next st <= s_next st' -> str st'.
Proof.
  intros [e [A B C D F G]] W El La N. exists e. constructor; rewrite ?W, ?El, ?La; auto. intros w d Hw. apply C in Hw. destruct Hw as [X [(k & i & Y)|Y]]; (split; [lia|]).
  - left. exists k, i. rewrite El. exact Y.
  - right. auto.
Qed.
Lemma str_mark st k id : str st -> str (mark_outdated st k id).
Proof. intros [e I]. exists e. apply inv_mark; auto. Qed.

Definition defs_of (st : state) : list (wire * count) := inp ++ flat_map nout (map t_node (s_nodes st)).
Definition U (st : state) (w : wire) : nat := count_occ Nat.eq_dec (flat_map nin (map t_node (s_nodes st))) w.
Definition isq (st : state) (w : wire) : Prop := exists c, In (w, c) (defs_of st) /\ 0 < cq c.
(** The wire of the latest value of a qubit. *)
Definition holds (st : state) (r w : nat) : Prop := exists id d, In (r, id) (s_latest st Qb) /\ In (w, d) (s_wires st) /\ In id (w_ids d Qb).
(** [A]: qubits whose wires are used already; [N]: wires that are not tracked yet. *)
Record Lin (st : state) (A N : nat -> Prop) : Prop := {
  n_str : str st;
  n_defs : map fst (defs_of st) = seq 0 (s_next st);
  n_scope : forall l1 n l2 w, map t_node (s_nodes st) = l1 ++ n :: l2 -> In w (nin n) -> In w (map fst (inp ++ flat_map nout l1));
  n_fresh : forall r id x, In (r, id) (s_latest st Qb) -> nth_error (s_elems st Qb) id = Some x -> e_old x = false;
  n_kind : forall w d k id, In (w, d) (s_wires st) -> In id (w_ids d k) -> (k = Qb <-> isq st w);
  n_new : forall w, N w -> isq st w /\ U st w = 0 /\ ~ In w (map fst (s_wires st));
  n_uses : forall w, isq st w -> U st w <= 1 /\ (U st w = 0 <-> N w \/ exists r, ~ A r /\ holds st r w) }.

Lemma lin_ext st (A N A' N' : nat -> Prop) : (forall r, (exists w, holds st r w) -> (A r <-> A' r)) -> (forall w, N w <-> N' w) -> Lin st A N -> Lin st A' N'.
Proof.
  intros HA HN [a b c d f g h]. constructor; auto.
  - intros w Hw. apply g, HN, Hw.
  - intros w Hw. destruct (h w Hw) as [X Y]. split; auto. rewrite Y, HN. split; (intros [Q|(r & Q1 & Q2)]; [auto|right; exists r; split; auto; intros Z; apply Q1; apply (HA r); eauto]).
Qed.
Lemma holds_fun st r w w' : str st -> holds st r w -> holds st r w' -> w = w'.
Proof.
  intros [e I] (id & d & A & B & C) (id' & d' & A' & B' & C'). assert (id = id').
  { pose proof (i_nodup _ _ _ _ _ _ _ _ I Qb) as Nd. apply get_in in A, A'; auto. congruence. }
  subst. exact (i_uniq _ _ _ _ _ _ _ _ I Qb id' w d w' d' B B' C C').
Qed.
Lemma key_data st w d d' : str st -> In (w, d) (s_wires st) -> In (w, d') (s_wires st) -> d = d'.
Proof.
  intros [e I] A B. pose proof (data_of_in _ _ st w d (i_keys _ _ _ _ _ _ _ _ I) A). pose proof (data_of_in _ _ st w d' (i_keys _ _ _ _ _ _ _ _ I) B). congruence.
Qed.
Lemma holds_inj st r r' w : str st -> holds st r w -> holds st r' w -> r = r'.
Proof.
  intros S0 (id & d & A & B & C) (id' & d' & A' & B' & C'). pose proof (key_data _ _ _ _ S0 B B'). subst d'. destruct S0 as [e I].
  destruct (wire_shape _ _ _ _ _ _ _ _ _ _ _ _ I B C) as (X & _). rewrite X in C'. destruct C' as [<-|[]].
  destruct (i_elem _ _ _ _ _ _ _ _ I _ _ _ A) as (x & X1 & X2). destruct (i_elem _ _ _ _ _ _ _ _ I _ _ _ A') as (y & Y1 & Y2). congruence.
Qed.
Lemma holds_key st r w : holds st r w -> In w (map fst (s_wires st)).
Proof. intros (id & d & _ & B & _). apply in_map_iff. exists (w, d). auto. Qed.
Lemma holds_isq st A N r w : Lin st A N -> holds st r w -> isq st w.
Proof. intros L (id & d & _ & B & C). apply (n_kind _ _ _ L w d Qb id B C). reflexivity. Qed.
Lemma key_lt st w : str st -> In w (map fst (s_wires st)) -> w < s_next st.
Proof. intros [e I] H. apply in_map_iff in H. destruct H as ([w' d] & <- & H). apply (i_shape _ _ _ _ _ _ _ _ I) in H. tauto. Qed.
Lemma isq_lt st A N w : Lin st A N -> isq st w -> w < s_next st.
Proof. intros L (c & H & _). assert (X : In w (map fst (defs_of st))) by (apply in_map_iff; exists (w, c); auto). rewrite (n_defs _ _ _ L) in X. apply in_seq in X. lia. Qed.

(** ** A new node *)
Section Add.
Variables (st : state) (i : inst Op E) (ins : list wire) (ti to : list ty).
Let st' : state := fst (add_node st i ins ti to).
Lemma nodes_add : map t_node (s_nodes st') = map t_node (s_nodes st) ++ [{| what := i; nin := ins; nout := combine (seq (s_next st) (length to)) (map count_or_default to) |}].
Proof. unfold st', add_node. cbn [fst s_nodes]. now rewrite map_app. Qed.
Lemma defs_add : defs_of st' = defs_of st ++ combine (seq (s_next st) (length to)) (map count_or_default to).
Proof. unfold defs_of. rewrite nodes_add, flat_map_app. cbn [flat_map nout]. rewrite app_nil_r, app_assoc. reflexivity. Qed.
Lemma U_add w : U st' w = U st w + count_occ Nat.eq_dec ins w.
Proof. unfold U. rewrite nodes_add, flat_map_app. cbn [flat_map nin]. rewrite app_nil_r, count_occ_app. reflexivity. Qed.
Lemma isq_old w : w < s_next st -> (isq st' w <-> isq st w).
Proof.
  intros L. unfold isq. rewrite defs_add. split; intros (c & H & P); exists c; (split; [|exact P]); [|apply in_or_app; auto]. apply in_app_or in H. destruct H as [H|H]; auto.
  apply in_combine_l in H. apply in_seq in H. lia.
Qed.
Lemma holds_add r w : holds st' r w <-> holds st r w.
Proof. reflexivity. Qed.
Lemma isq_new j : map fst (defs_of st) = seq 0 (s_next st) -> j < length to -> plain_ty (nth j to TQ) -> (isq st' (s_next st + j) <-> nth j to TQ = TQ).
Proof.
  intros Hd L Pl. unfold isq. rewrite defs_add.
  pose proof (fun c => in_outs to (s_next st) j c L) as Hn.
  split.
  - intros (c & H & P). apply in_app_or in H. destruct H as [H|H].
    + assert (X : In (s_next st + j) (map fst (defs_of st))) by (apply in_map_iff; eexists; split; [|exact H]; reflexivity). rewrite Hd in X. apply in_seq in X. lia.
    + apply Hn in H. subst c. destruct Pl as [-> | [Pl | [Pl | Pl]]]; [reflexivity| | |]; rewrite Pl in P; cbn in P; lia.
  - intros Q. exists (count_or_default (nth j to TQ)). split; [apply in_or_app; right; apply Hn; reflexivity|]. rewrite Q. cbn. lia.
Qed.
Lemma lin_add A N (B : nat -> Prop) : Lin st A N -> Forall (fun w => w < s_next st) ins ->
  (forall w, isq st w -> count_occ Nat.eq_dec ins w = 0 \/ (count_occ Nat.eq_dec ins w = 1 /\ exists r, B r /\ ~ A r /\ holds st r w)) ->
  (forall r w, B r -> holds st r w -> count_occ Nat.eq_dec ins w = 1) ->
  Lin st' (fun r => A r \/ B r) (fun w => N w \/ (isq st' w /\ s_next st <= w)).
Proof.
  intros L Li H1 H2. pose proof L as [a b c d f g h].
  assert (Zero : forall w, s_next st <= w -> U st' w = 0).
  { intros w Hw. rewrite U_add. assert (X : count_occ Nat.eq_dec ins w = 0) by (apply count_occ_not_In; intros Y; rewrite Forall_forall in Li; apply Li in Y; lia). rewrite X, Nat.add_0_r.
    unfold U. apply count_occ_not_In. intros Y. apply in_flat_map in Y. destruct Y as (n & Y1 & Y2). apply in_split in Y1. destruct Y1 as (l1 & l2 & Y1).
    pose proof (c _ _ _ _ Y1 Y2) as Y3. assert (Y4 : In w (map fst (defs_of st))) by (unfold defs_of; rewrite Y1, flat_map_app, map_app in *; rewrite map_app, !in_app_iff in *; tauto).
    rewrite b in Y4. apply in_seq in Y4. lia. }
  assert (Old : forall w, isq st w -> count_occ Nat.eq_dec ins w = 0 -> U st' w = U st w) by (intros w _ Q; rewrite U_add, Q; lia).
  constructor.
  - eapply str_same; [exact a| | | |]; try reflexivity. unfold st', add_node. cbn. lia.
  - rewrite defs_add, map_app, b, keys_outs. unfold st', add_node. cbn [fst s_next]. rewrite seq_app. reflexivity.
  - intros l1 n l2 w Q Hw. rewrite nodes_add in Q. destruct l2 as [|m l2] using rev_ind.
    + apply app_inj_tail in Q. destruct Q as [<- <-]. cbn [nin] in Hw. change (In w (map fst (defs_of st))). rewrite b. apply in_seq. rewrite Forall_forall in Li. apply Li in Hw. lia.
    + change (n :: l2 ++ [m]) with ((n :: l2) ++ [m]) in Q. rewrite app_assoc in Q. apply app_inj_tail in Q. destruct Q as [Q _]. exact (c _ _ _ _ Q Hw).
  - exact d.
  - intros w dd k id W X. rewrite (f w dd k id W X). symmetry. apply isq_old. apply key_lt; auto. apply in_map_iff. exists (w, dd). auto.
  - intros w [Hw|[Hw1 Hw2]].
    + destruct (g w Hw) as (X & Y & Z). pose proof (isq_lt _ _ _ _ L X) as Lt. split; [apply isq_old; auto|]. split; [|exact Z].
      destruct (H1 w X) as [Q|(Q & r & _ & _ & Q2)]; [rewrite (Old w X Q); auto|]. exfalso. exact (Z (holds_key _ _ _ Q2)).
    + split; auto. split; [apply Zero; auto|]. intros K. change (s_wires st') with (s_wires st) in K. apply key_lt in K; auto. lia.
  - intros w Hw. destruct (Nat.lt_ge_cases w (s_next st)) as [Lt|Ge].
    + apply isq_old in Hw; auto. destruct (h w Hw) as [X Y]. destruct (H1 w Hw) as [Q|(Q & r & Q1 & Q2 & Q3)].
      * rewrite (Old w Hw Q). split; auto. rewrite Y. split.
        -- intros [Z|(r & Z1 & Z2)]; [auto|]. right. exists r. split; auto. intros [W|W]; auto. rewrite (H2 r w W Z2) in Q. discriminate.
        -- intros [[Z|[_ Z]]|(r & Z1 & Z2)]; [auto|lia|]. right. exists r. split; auto.
      * assert (U st w = 0) by (apply Y; right; exists r; auto). rewrite U_add, Q, H. split; [lia|]. split; [discriminate|]. intros [[Z|[_ Z]]|(r' & Z1 & Z2)]; [|lia|].
        -- destruct (g w Z) as (_ & _ & Z'). exfalso. exact (Z' (holds_key _ _ _ Q3)).
        -- change (holds st r' w) in Z2. rewrite (holds_inj _ _ _ _ a Z2 Q3) in Z1. tauto.
    + rewrite (Zero w Ge). split; [lia|]. split; auto.
Qed.
(** A node that uses no qubits and makes none. *)
Lemma lin_add_plain A N : Lin st A N -> Forall (fun w => w < s_next st /\ ~ isq st w) ins -> Forall (fun t => t = TB \/ t = TT \/ t = TP) to -> Lin st' A N.
Proof.
  intros L Li Lo. apply lin_ext with (A := fun r => A r \/ False) (N := fun w => N w \/ (isq st' w /\ s_next st <= w)).
  - tauto.
  - intros w. split; [|auto]. intros [H|[H1 H2]]; auto. exfalso. assert (X := H1). destruct X as (c & X & P). rewrite defs_add in X. apply in_app_or in X. destruct X as [X|X].
    + assert (Y : isq st w) by (exists c; auto). apply (isq_lt _ _ _ _ L) in Y. lia.
    + apply in_combine_r in X. apply in_map_iff in X. destruct X as (t & <- & X). rewrite Forall_forall in Lo. destruct (Lo t X) as [-> | [-> | ->]]; cbn in P; lia.
  - apply lin_add; auto.
    + eapply Forall_impl; [|exact Li]. intros w [Q _]. exact Q.
    + intros w Hw. left. apply count_occ_not_In. intros Y. rewrite Forall_forall in Li. apply Li in Y. tauto.
    + intros r w [].
Qed.
End Add.

(** ** Tracking *)
Lemma holds_track_q st w t r r' w' : str st -> holds (track_one st Qb w t r) r' w' <-> (r' = r /\ w' = w) \/ (r' <> r /\ holds st r' w').
Proof.
  intros [e I]. destruct (track_one_fields Op E st Qb w t r) as (_ & _ & (d & F3 & _ & F3a & F3b) & F4 & F5). unfold holds. rewrite F3, F5. cbn [upd kind_eqb].
  pose proof (i_nodup _ _ _ _ _ _ _ _ I Qb) as Nd.
  assert (Bound : forall w1 d1 id, In (w1, d1) (s_wires st) -> In id (w_ids d1 Qb) -> id < length (s_elems st Qb)).
  { intros w1 d1 id H1 H2. destruct (i_shape _ _ _ _ _ _ _ _ I _ _ H1) as [_ [(k & j & X1 & X2 & X3 & X4)|X]]; [|rewrite X in H2; destruct H2].
    destruct k; cbn [other] in *; [rewrite X1 in H2; destruct H2 as [<-|[]]; auto|rewrite X2 in H2; destruct H2]. }
  split.
  - intros (id & d' & A & B & C). unfold upd in A. cbn [kind_eqb] in A. apply in_insert in A; auto. apply in_app_or in B. destruct B as [B|[B|[]]].
    + destruct A as [[-> ->]|[A1 A2]]; [apply (Bound _ _ _ B) in C; lia|]. right. split; auto. exists id, d'. auto.
    + injection B as <- <-. rewrite F3a in C. destruct C as [<-|[]]. destruct A as [[-> _]|[A1 A2]]; [left; auto|].
      destruct (i_elem _ _ _ _ _ _ _ _ I _ _ _ A2) as (x & X & _). assert (length (s_elems st Qb) < length (s_elems st Qb)) by (apply nth_error_Some; congruence). lia.
  - unfold upd. cbn [kind_eqb]. intros [[-> ->]|[Ne (id & d' & A & B & C)]].
    + exists (length (s_elems st Qb)), d. split; [apply in_insert; auto|]. split; [apply in_or_app; right; now left|]. rewrite F3a. now left.
    + exists id, d'. split; [apply in_insert; auto|]. split; [apply in_or_app; auto|auto].
Qed.
Lemma same_uses (st st' : state) w : s_nodes st' = s_nodes st -> (isq st' w <-> isq st w) /\ U st' w = U st w.
Proof. intros Q. unfold isq, U, defs_of. rewrite Q. split; reflexivity. Qed.
Lemma lin_track_q st A N w r : Lin st A N -> N w -> (A r \/ forall w', ~ holds st r w') ->
  Lin (track_one st Qb w TQ r) (fun x => A x /\ x <> r) (fun x => N x /\ x <> w).
Proof.
  intros L Hw Hr. pose proof L as [a b c d f g h]. destruct (g w Hw) as (Gq & Gu & Gk). pose proof (isq_lt _ _ _ _ L Gq) as Lt.
  destruct (track_one_fields Op E st Qb w TQ r) as (F1 & F2 & (dd & F3 & _ & F3a & F3b) & F4 & F5).
  pose proof (fun w => same_uses st (track_one st Qb w TQ r) w F1) as SU0.
  assert (SU : forall x, (isq (track_one st Qb w TQ r) x <-> isq st x) /\ U (track_one st Qb w TQ r) x = U st x) by (intros; apply same_uses; auto). clear SU0.
  constructor.
  - apply str_track; auto. reflexivity.
  - unfold defs_of. rewrite F1, F2. exact b.
  - rewrite F1. exact c.
  - intros r' id x. rewrite F4, F5. unfold upd. cbn [kind_eqb]. destruct a as [e I]. pose proof (i_nodup _ _ _ _ _ _ _ _ I Qb) as Nd. intros H1 H2. apply in_insert in H1; auto. destruct H1 as [[-> ->]|[Ne H1]].
    + rewrite (elems'_new _ _ _ _ _ _ _ _ _ _ I) in H2. injection H2 as <-. reflexivity.
    + rewrite (elems'_other _ _ _ _ _ _ _ _ _ _ _ _ I H1 Ne) in H2. eapply d; eauto.
  - intros w' d' k id W X. destruct (SU w') as [-> _]. rewrite F3 in W. apply in_app_or in W. destruct W as [W|[W|[]]]; [exact (f _ _ _ _ W X)|]. injection W as <- <-.
    destruct k; [split; auto|]. cbn [other] in F3b. rewrite F3b in X. destruct X.
  - intros w' [H1 H2]. destruct (SU w') as [-> ->]. destruct (g w' H1) as (X & Y & Z). split; auto. split; auto. rewrite F3, map_app, in_app_iff. simpl. intros [Q|[Q|[]]]; auto.
  - intros w' Hw'. destruct (SU w') as [S1 ->]. apply S1 in Hw'. destruct (h w' Hw') as [X Y]. split; auto. destruct (Nat.eq_dec w' w) as [->|Ne].
    + split; [|intros _; exact Gu]. intros _. right. exists r. split; [tauto|]. apply holds_track_q; auto.
    + rewrite Y. split.
      * intros [Z|(r' & Z1 & Z2)]; [auto|]. right. assert (r' <> r) by (intros ->; destruct Hr as [Hr|Hr]; [auto|exact (Hr _ Z2)]). exists r'. split; [tauto|]. apply holds_track_q; auto.
      * intros [[Z _]|(r' & Z1 & Z2)]; [auto|]. apply holds_track_q in Z2; auto. destruct Z2 as [[-> ->]|[Z2 Z3]]; [contradiction|]. right. exists r'. split; auto.
Qed.
Lemma holds_same (st st' : state) r w : s_latest st' Qb = s_latest st Qb -> (exists l, s_wires st' = s_wires st ++ l /\ forall x, In x l -> w_ids (snd x) Qb = []) -> (holds st' r w <-> holds st r w).
Proof.
  intros La (l & W & H). unfold holds. rewrite La, W. split; intros (id & d & A & B & C); exists id, d; (split; [exact A|]).
  - apply in_app_or in B. destruct B as [B|B]; [auto|]. apply H in B. cbn [snd] in B. rewrite B in C. destruct C.
  - split; auto. apply in_or_app; auto.
Qed.
(** A new wire without qubits. *)
Lemma lin_track_none (st st' : state) A N w d : Lin st A N -> str st' -> s_nodes st' = s_nodes st -> s_next st' = s_next st -> s_latest st' Qb = s_latest st Qb -> s_elems st' Qb = s_elems st Qb ->
  s_wires st' = s_wires st ++ [(w, d)] -> w_ids d Qb = [] -> ~ isq st w -> Lin st' A N.
Proof.
  intros L S0 Hn Hx Hl He Hw Hd Hq. pose proof L as [a b c dd f g h].
  assert (SU : forall x, (isq st' x <-> isq st x) /\ U st' x = U st x) by (intros; apply same_uses; auto).
  assert (Ho : forall r x, holds st' r x <-> holds st r x) by (intros; apply holds_same; auto; exists [(w, d)]; split; auto; intros y [<-|[]]; auto).
  constructor; auto.
  - unfold defs_of. rewrite Hn, Hx. exact b.
  - rewrite Hn. exact c.
  - rewrite Hl, He. exact dd.
  - intros w' d' k id W X. destruct (SU w') as [-> _]. rewrite Hw in W. apply in_app_or in W. destruct W as [W|[W|[]]]; [exact (f _ _ _ _ W X)|]. injection W as <- <-.
    destruct k; [rewrite Hd in X; destruct X|]. split; [discriminate|]. intros Q. contradiction.
  - intros w' H1. destruct (SU w') as [-> ->]. destruct (g w' H1) as (X & Y & Z). split; auto. split; auto. rewrite Hw, map_app, in_app_iff. simpl. intros [Q|[Q|[]]]; auto. subst. contradiction.
  - intros w' Hw'. destruct (SU w') as [S1 ->]. apply S1 in Hw'. destruct (h w' Hw') as [X Y]. split; auto. rewrite Y. split; (intros [Z|(r' & Z1 & Z2)]; [auto|right; exists r'; split; auto; apply Ho; auto]).
Qed.
Lemma lin_track_b st A N w t r : Lin st A N -> fits t Bt -> w < s_next st -> ~ In w (map fst (s_wires st)) -> ~ isq st w -> Lin (track_one st Bt w t r) A N.
Proof.
  intros L F Lt Nw Nq. destruct (track_one_fields Op E st Bt w t r) as (F1 & F2 & (dd & F3 & _ & F3a & F3b) & F4 & F5).
  apply lin_track_none with (st := st) (w := w) (d := dd); try (rewrite F5; reflexivity); try (rewrite F4; reflexivity); auto.
  apply str_track; auto. apply (n_str _ _ _ L).
Qed.
Lemma lin_track_empty st A N w t : Lin st A N -> w < s_next st -> ~ In w (map fst (s_wires st)) -> ~ isq st w -> Lin (track_wire st w t [] []) A N.
Proof.
  intros L Lt Nw Nq. eapply lin_track_none with (st := st) (w := w) (d := {| w_ty := t; w_ids := fun k => match k with Qb => [] | Bt => [] end |}); try reflexivity; auto. destruct (n_str _ _ _ L) as [e I]. exists e. apply inv_track_empty; auto.
Qed.
Lemma lin_mark st A N id : Lin st A N -> Lin (mark_outdated st Bt id) A N.
Proof.
  intros [a b c d f g h]. constructor; auto.
  apply str_mark; auto.
Qed.
Lemma lin_marks l : forall st A N, Lin st A N -> Lin (fold_left (fun st i => mark_outdated st Bt i) l st) A N.
Proof. induction l as [|x l IH]; intros st A N L; cbn [fold_left]; auto. apply IH, lin_mark, L. Qed.
Lemma marks_map (l : list arg) : forall st : state, fold_left (fun st a => mark_outdated st Bt (a_id a)) l st = fold_left (fun st i => mark_outdated st Bt i) (map a_id l) st.
Proof. induction l as [|x l IH]; intros st; cbn [fold_left map]; auto. Qed.
(** A qubit without a wire. *)
Lemma lin_zero st A N r : Lin st A N -> ~ In r (map fst (s_latest st Qb)) -> Lin (fst (track st Qb r)) A N.
Proof.
  intros L Hr. pose proof L as [a b c d f g h].
  assert (Ho : forall r' w, holds (fst (track st Qb r)) r' w <-> holds st r' w).
  { intros r' w. unfold holds, track. cbn [fst s_latest s_wires]. unfold upd. cbn [kind_eqb]. destruct a as [e I]. pose proof (i_nodup _ _ _ _ _ _ _ _ I Qb) as Nd.
    split; intros (id & d' & A1 & B1 & C1); exists id, d'; (split; [|auto]).
    - apply in_insert in A1; auto. destruct A1 as [[-> ->]|[_ A1]]; auto. exfalso. destruct (i_shape _ _ _ _ _ _ _ _ I _ _ B1) as [_ [(k & j & X1 & X2 & X3 & X4)|X]]; [|rewrite X in C1; destruct C1].
      destruct k; cbn [other] in *; [rewrite X1 in C1; destruct C1 as [C1|[]]; rewrite C1 in X4; lia|rewrite X2 in C1; destruct C1].
    - apply in_insert; auto. right. split; auto. intros ->. apply Hr. apply in_map_iff. exists (r, id). auto. }
  constructor.
  - destruct a as [e I]. exists e. apply inv_track_zero; auto.
  - exact b.
  - exact c.
  - intros r' id x. unfold track. cbn [fst s_latest s_elems]. unfold upd. cbn [kind_eqb]. destruct a as [e I]. pose proof (i_nodup _ _ _ _ _ _ _ _ I Qb) as Nd.
    assert (G0 : get r (s_latest st Qb) = None) by (apply get_none; auto). rewrite G0. intros H1 H2. apply in_insert in H1; auto. destruct H1 as [[-> ->]|[Ne H1]].
    + rewrite nth_error_app2 in H2 by lia. rewrite Nat.sub_diag in H2. injection H2 as <-. reflexivity.
    + destruct (i_elem _ _ _ _ _ _ _ _ I _ _ _ H1) as (y & Y & _). rewrite nth_error_app1 in H2 by (apply nth_error_Some; congruence). eapply d; eauto.
  - exact f.
  - exact g.
  - intros w Hw. destruct (h w Hw) as [X Y]. split; [exact X|]. change (U (fst (track st Qb r)) w) with (U st w). rewrite Y. split; (intros [Z|(r' & Z1 & Z2)]; [auto|right; exists r'; split; auto; apply Ho; auto]).
Qed.
Lemma lin_zero_b st A N r : Lin st A N -> ~ In r (map fst (s_latest st Bt)) -> Lin (fst (track st Bt r)) A N.
Proof.
  intros L Hr. pose proof L as [a b c d f g h]. constructor; auto. destruct a as [e I]. exists e. apply inv_track_zero; auto.
Qed.

(** ** Finding a wire *)
Notation find_typed_wire := (find_typed_wire read_op make_op).
Notation find_typed_wires := (find_typed_wires read_op make_op).
Notation convert := (convert Op E read_op make_op).
Notation select := (select Op E).
Definition more (st st' : state) : Prop :=
  s_next st <= s_next st' /\ (forall r w, holds st r w -> holds st' r w) /\ (forall w, w < s_next st -> (isq st' w <-> isq st w)).
Lemma more_refl st : more st st.
Proof. split; auto. split; auto. reflexivity. Qed.
Lemma more_trans st st1 st2 : more st st1 -> more st1 st2 -> more st st2.
Proof. intros (A & B & C) (A' & B' & C'). split; [lia|]. split; auto. intros w L. rewrite C', C by lia. reflexivity. Qed.
Lemma more_add st i ins ti to : more st (fst (add_node st i ins ti to)).
Proof. split; [cbn; lia|]. split; [auto|]. intros w L. apply isq_old; auto. Qed.
Lemma latest_holds st r id : str st -> In (r, id) (s_latest st Qb) -> (forall w d, In (w, d) (s_wires st) -> ~ In id (w_ids d Qb)) -> forall w, ~ holds st r w.
Proof.
  intros [e I] L N w (id' & d & A & B & C). pose proof (i_nodup _ _ _ _ _ _ _ _ I Qb) as Nd. assert (id = id') by (apply get_in in L, A; auto; congruence). subst. exact (N _ _ B C).
Qed.
Lemma lin_init_q st A N r : Lin st A N -> ~ A r -> (forall w, ~ holds st r w) ->
  Lin (fst (initialize_qubit st r)) A N /\ more st (fst (initialize_qubit st r)) /\ holds (fst (initialize_qubit st r)) r (snd (initialize_qubit st r)).
Proof.
  intros L Na Nh. change (fst (initialize_qubit st r)) with (track_one (fst (add_node st IAlloc [] [] [TQ])) Qb (s_next st) TQ r). change (snd (initialize_qubit st r)) with (s_next st).
  set (st1 := fst (add_node st IAlloc [] [] [TQ])).
  assert (L1 : Lin st1 (fun x => A x \/ False) (fun w => N w \/ (isq st1 w /\ s_next st <= w))).
  { apply lin_add; auto. intros r0 w []. }
  assert (Q : isq st1 (s_next st)).
  { pose proof (isq_new st IAlloc [] [] [TQ] 0 (n_defs _ _ _ L)) as X. rewrite Nat.add_0_r in X. apply X; [simpl; lia|left; reflexivity|reflexivity]. }
  assert (Only : forall w, isq st1 w -> s_next st <= w -> w = s_next st).
  { intros w H1 H2. apply (isq_lt _ _ _ _ L1) in H1. cbn in H1. lia. }
  pose proof (lin_track_q st1 _ _ (s_next st) r L1 (or_intror (conj Q (le_n _))) (or_intror Nh)) as L2.
  split; [|split].
  - eapply lin_ext; [| |exact L2].
    + intros r' (w' & Hr'). apply holds_track_q in Hr'; [|apply (n_str _ _ _ L1)]. split; [tauto|]. intros Ha. split; [tauto|]. intros ->. contradiction.
    + intros w. split; [|intros Hw; split; [auto|]].
      * intros [[Hw|[H1 H2]] Ne]; auto. exfalso. apply Ne. auto.
      * intros ->. destruct (n_new _ _ _ L _ Hw) as (X & _). apply (isq_lt _ _ _ _ L) in X. lia.
  - destruct (more_add st IAlloc [] [] [TQ]) as (M1 & M2 & M3). fold st1 in M1, M2, M3. split; [exact M1|]. split.
    + intros r' w' H. apply holds_track_q; [apply (n_str _ _ _ L1)|]. right. split; [|exact H]. intros ->. exact (Nh _ H).
    + intros w Hw. rewrite <- (M3 w Hw). apply same_uses. reflexivity.
  - apply holds_track_q; [apply (n_str _ _ _ L1)|]. auto.
Qed.
Lemma lin_track_b_more st A N w t r : Lin st A N -> fits t Bt -> w < s_next st -> ~ In w (map fst (s_wires st)) -> ~ isq st w -> Lin (track_one st Bt w t r) A N /\ more st (track_one st Bt w t r) /\ ~ isq (track_one st Bt w t r) w.
Proof.
  intros L F Lt Nw Nq. split; [apply lin_track_b; auto|]. destruct (track_one_fields Op E st Bt w t r) as (F1 & F2 & (dd & F3 & _ & F3a & F3b) & F4 & F5). split.
  - split; [rewrite F2; auto|]. split; [|intros; apply same_uses; auto]. intros r' w' H. apply (holds_same st); auto; try (rewrite F5; reflexivity). exists [(w, dd)]. split; auto. intros x [<-|[]]; auto.
  - rewrite (proj1 (same_uses st (track_one st Bt w t r) w F1)). auto.
Qed.
Lemma not_new st i ins ti t A N : Lin st A N -> t = TB \/ t = TT \/ t = TP -> ~ isq (fst (add_node st i ins ti [t])) (s_next st).
Proof.
  intros L Ht X. pose proof (isq_new st i ins ti [t] 0 (n_defs _ _ _ L)) as Y. rewrite Nat.add_0_r in Y. apply Y in X; [|simpl; lia|unfold plain_ty; simpl; tauto]. simpl in X. destruct Ht as [-> | [-> | ->]]; discriminate.
Qed.
Lemma lin_init_b st A N r : Lin st A N -> let st' := fst (initialize_bit st r) in let w := snd (initialize_bit st r) in Lin st' A N /\ more st st' /\ ~ isq st' w /\ w < s_next st'.
Proof.
  intros L. cbv zeta. change (fst (initialize_bit st r)) with (track_one (fst (add_node st (IConst false) [] [] [TB])) Bt (s_next st) TB r). change (snd (initialize_bit st r)) with (s_next st).
  set (st1 := fst (add_node st (IConst false) [] [] [TB])).
  assert (L1 : Lin st1 A N) by (apply lin_add_plain; auto).
  assert (Nq : ~ isq st1 (s_next st)) by (eapply not_new; eauto).
  assert (Nk : ~ In (s_next st) (map fst (s_wires st1))) by (intros X; apply (key_lt st) in X; [lia|apply (n_str _ _ _ L)]).
  destruct (lin_track_b_more st1 A N (s_next st) TB r L1 (or_introl eq_refl) ltac:(cbn; lia) Nk Nq) as (A1 & A2 & A3).
  split; auto. split; [eapply more_trans; [apply more_add|exact A2]|]. split; auto. cbn. lia.
Qed.
Lemma convert_lin st A N w t r st' w' d : Lin st A N -> fits t Bt -> In (w, d) (s_wires st) -> w_ids d Qb = [] -> fits (w_ty d) Bt -> ~ isq st w -> convert st Bt w t r = Ok (st', w') ->
  Lin st' A N /\ more st st' /\ ~ isq st' w' /\ w' < s_next st'.
Proof.
  intros L Ft W Wq Fd Nq. destruct (n_str _ _ _ L) as [e I]. unfold DecProofs.convert. rewrite (data_of_in _ _ st w d (i_keys _ _ _ _ _ _ _ _ I) W).
  assert (Lw : w < s_next st) by (apply (i_shape _ _ _ _ _ _ _ _ I) in W; tauto).
  destruct (ty_eqb (w_ty d) t) eqn:Q.
  - intros [= <- <-]. split; auto. split; [apply more_refl|]. auto.
  - destruct (match w_ty d, t with TB, TT => Ok make_op | TT, TB => Ok read_op | _, _ => Err CannotTranslateWire end) as [o|]; [|discriminate]. intros Q'.
    assert (Q1 : st' = mark_wire_outdated (track_one (fst (add_node st (ITransparent o) [w] [w_ty d] [t])) Bt (s_next st) (w_ty d) r) d) by (cbn [bind] in Q'; congruence).
    assert (Q2 : w' = s_next st) by (cbn [bind] in Q'; congruence). clear Q'. subst st' w'.
    set (st1 := fst (add_node st (ITransparent o) [w] [w_ty d] [t])).
    assert (L1 : Lin st1 A N) by (apply lin_add_plain; auto; constructor; auto; destruct Ft as [-> | ->]; auto).
    assert (Nq1 : ~ isq st1 (s_next st)) by (eapply not_new; eauto; destruct Ft as [-> | ->]; auto).
    assert (Nk : ~ In (s_next st) (map fst (s_wires st1))) by (intros X; apply (key_lt st) in X; [lia|apply (n_str _ _ _ L)]).
    destruct (lin_track_b_more st1 A N (s_next st) (w_ty d) r L1 Fd ltac:(cbn; lia) Nk Nq1) as (A1 & A2 & A3).
    unfold mark_wire_outdated. rewrite Wq. cbn [fold_left].
    assert (M : forall l st0, s_nodes (fold_left (fun st i => mark_outdated st Bt i) l st0) = s_nodes st0 /\ s_next (fold_left (fun st i => mark_outdated st Bt i) l st0) = s_next st0 /\ s_wires (fold_left (fun st i => mark_outdated st Bt i) l st0) = s_wires (st0 : state) /\ s_latest (fold_left (fun st i => mark_outdated st Bt i) l st0) = s_latest st0).
    { induction l as [|x l IH]; intros st0; cbn [fold_left]; auto. destruct (IH (mark_outdated st0 Bt x)) as (-> & -> & -> & ->). auto. }
    destruct (M (w_ids d Bt) (track_one st1 Bt (s_next st) (w_ty d) r)) as (M1 & M2 & M3 & M4).
    split; [apply lin_marks; auto|]. split.
    + eapply more_trans; [apply more_add|]. eapply more_trans; [exact A2|]. split; [rewrite M2; auto|]. split; [|intros; apply same_uses; auto].
      intros r' w' (id & dd & X). exists id, dd. rewrite M3, M4. exact X.
    + rewrite (proj1 (same_uses _ _ _ M1)), M2. split; auto. cbn. lia.
Qed.
Lemma select_lin st A N k t a qs bs : Lin st A N -> fits t k -> In a (match k with Qb => firstn 1 qs | Bt => firstn 1 bs end) -> tracked st k (a_reg a) = Some a -> (k = Qb -> ~ A (a_reg a)) ->
  let st1 := fst (select st k t a qs bs) in let w := snd (select st k t a qs bs) in
  Lin st1 A N /\ more st st1 /\ match k with Qb => holds st1 (a_reg a) w | Bt => ~ isq st1 w end /\
  exists d, In (w, d) (s_wires st1) /\ w_ids d (other k) = [] /\ fits (w_ty d) k.
Proof.
  intros L Ft Ha Ta Na. cbv zeta. destruct (n_str _ _ _ L) as [e I]. destruct (tracked_facts _ _ _ _ _ _ _ _ _ _ _ I Ta) as (_ & La & _).
  destruct (select_cases _ _ _ _ _ run0 prun0 read_op st e R0 k t a qs bs I Ft Ha) as [[S1 (d & W & X)]|[S1 S2]].
  - cbv zeta in S1, W. rewrite S1 in *. destruct (wire_shape _ _ _ _ _ _ _ _ _ _ _ _ I W X) as (Y1 & Y2 & Y3). split; auto. split; [apply more_refl|]. split; [|exists d; auto].
    destruct k; [exists (a_id a), d; auto|]. intros Q. apply (n_kind _ _ _ L _ _ _ _ W X) in Q. discriminate.
  - cbv zeta in S2. pose proof (f_equal fst S2) as S3. pose proof (f_equal snd S2) as S4. cbn [fst snd] in S3, S4. rewrite <- S3, <- S4. clear S2 S3 S4.
    destruct k.
    + pose proof (latest_holds st (a_reg a) (a_id a) (n_str _ _ _ L) La S1) as Nh. destruct (lin_init_q st A N (a_reg a) L (Na eq_refl) Nh) as (X1 & X2 & X3). split; [exact X1|]. split; [exact X2|]. split; [exact X3|].
      destruct X3 as (id & d & Y1 & Y2 & Y3). destruct (n_str _ _ _ X1) as [e1 I1]. destruct (wire_shape _ _ _ _ _ _ _ _ _ _ _ _ I1 Y2 Y3) as (Z1 & Z2 & Z3). exists d. auto.
    + destruct (lin_init_b st A N (a_reg a) L) as (X1 & X2 & X3 & X4). split; [exact X1|]. split; [exact X2|]. split; [exact X3|].
      destruct (track_one_fields Op E (fst (add_node st (IConst false) [] [] [TB])) Bt (s_next st) TB (a_reg a)) as (F1 & F2 & (dd & F3 & F3t & F3a & F3b) & F4 & F5).
      exists dd. split; [|split; [exact F3b|rewrite F3t; now left]]. change (In (s_next st, dd) (s_wires (track_one (fst (add_node st (IConst false) [] [] [TB])) Bt (s_next st) TB (a_reg a)))). rewrite F3. apply in_or_app. right. now left.
Qed.
Definition found_lin (st : state) (t : ty) (qs bs : list arg) (ps : list wire) (st' : state) (w : wire) (qs' bs' : list arg) (ps' : list wire) : Prop :=
  match t with
  | TP => ps = w :: ps' /\ qs' = qs /\ bs' = bs /\ st' = st
  | TQ => exists a, qs = a :: qs' /\ bs' = bs /\ ps' = ps /\ holds st' (a_reg a) w /\ frame st st' Qb (a_reg a)
  | TB | TT => exists a, bs = a :: bs' /\ qs' = qs /\ ps' = ps /\ ~ isq st' w /\ frame st st' Bt (a_reg a) /\ w < s_next st'
  | _ => False
  end.
Lemma find_lin st A N t qs bs ps st' w qs' bs' ps' : Lin st A N -> good_args st qs bs -> (forall a, In a qs -> ~ A (a_reg a)) ->
  find_typed_wire st t qs bs ps = Ok (st', w, qs', bs', ps') ->
  Lin st' A N /\ more st st' /\ same_keys st st' /\ found_lin st t qs bs ps st' w qs' bs' ps'.
Proof.
  intros L G Na Q. destruct (n_str _ _ _ L) as [e I].
  destruct (find_typed_wire_ok _ _ _ _ tt tt run0 prun0 den0 read_op make_op _ _ _ _ _ _ _ _ _ _ _ _ I G Q) as (e' & _ & I' & K & F).
  destruct G as [Gq Gb].
  assert (Bits : fits t Bt -> (exists a, bs = a :: bs' /\ qs' = qs /\ ps' = ps /\ a_old a = false /\ frame st st' Bt (a_reg a) /\ w < s_next st') ->
    Lin st' A N /\ more st st' /\ same_keys st st' /\ exists a, bs = a :: bs' /\ qs' = qs /\ ps' = ps /\ ~ isq st' w /\ frame st st' Bt (a_reg a) /\ w < s_next st').
  { intros Ft (a & -> & -> & -> & Oa & Fr & Lt). rewrite find_bit in Q by auto. rewrite Oa in Q.
    destruct (select_lin st A N Bt t a qs (a :: bs') L Ft (or_introl eq_refl) (Gb a (or_introl eq_refl)) ltac:(discriminate)) as (L1 & M1 & Nq & d & W & Wq & Fd).
    cbv zeta in *. destruct (convert _ Bt _ t (a_reg a)) as [[st2 w2]|] eqn:Hc; [|discriminate]. injection Q as -> ->.
    destruct (convert_lin _ A N _ t (a_reg a) st' w d L1 Ft W Wq Fd Nq Hc) as (L2 & M2 & X1 & X2).
    split; auto. split; [eapply more_trans; eauto|]. split; auto. exists a. repeat split; auto. }
  destruct t; cbn [found_wire found_lin] in *; try contradiction.
  - destruct F as (a & -> & -> & -> & Oa & _ & Fr & Lt). rewrite find_qubit in Q. rewrite Oa in Q.
    destruct (select_lin st A N Qb TQ a (a :: qs') bs L eq_refl (or_introl eq_refl) (Gq a (or_introl eq_refl)) (fun _ => Na a (or_introl eq_refl))) as (L1 & M1 & Hh & d & W & Wq & Fd).
    cbv zeta in *. destruct (convert _ Qb _ TQ (a_reg a)) as [[st2 w2]|] eqn:Hc; [|discriminate]. injection Q as -> ->.
    unfold DecProofs.convert in Hc. destruct (data_of _ _) as [d'|]; [|discriminate]. destruct (ty_eqb (w_ty d') TQ); [|destruct (w_ty d'); discriminate]. injection Hc as <- <-.
    split; auto. split; auto. split; auto. exists a. auto.
  - apply Bits; [now left|]. destruct F as (a & A1 & A2 & A3 & A4 & _ & A5 & A6). exists a. auto 10.
  - apply Bits; [now right|]. destruct F as (a & A1 & A2 & A3 & A4 & _ & A5 & A6). exists a. auto 10.
  - destruct F as (-> & -> & -> & -> & _). split; auto. split; [apply more_refl|]. auto.
Qed.
Definition params_lin (st : state) (ps : list wire) : Prop := Forall (fun p => p < s_next st /\ ~ isq st p) ps.
Lemma params_more st st' ps : more st st' -> params_lin st ps -> params_lin st' ps.
Proof. intros (A & _ & B) H. eapply Forall_impl; [|exact H]. intros p [X Y]. split; [lia|]. rewrite B; auto. Qed.
Lemma holds_lt st A N r w : Lin st A N -> holds st r w -> w < s_next st.
Proof. intros L H. eapply isq_lt; eauto. eapply holds_isq; eauto. Qed.
Lemma more_holds st st' (l : list arg) vq : more st st' -> Forall2 (fun a w => holds st (a_reg a) w) l vq -> Forall2 (fun a w => holds st' (a_reg a) w) l vq.
Proof. intros (_ & M & _) H. induction H; constructor; auto. Qed.
(** The wires of qubits among [ws] are those of the arguments [l]. *)
Definition wires_of (st : state) (l : list arg) (ws : list wire) : Prop :=
  exists vq, Forall2 (fun a w => holds st (a_reg a) w) l vq /\ forall w, isq st w -> count_occ Nat.eq_dec ws w = count_occ Nat.eq_dec vq w.
Lemma wires_of_q st st' A N a l w ws : Lin st' A N -> holds st (a_reg a) w -> more st st' -> wires_of st' l ws -> wires_of st' (a :: l) (w :: ws).
Proof.
  intros L H M (vq & H1 & H2). exists (w :: vq). split; [constructor; auto; apply M; auto|]. intros x Hx. simpl. destruct (Nat.eq_dec w x); rewrite H2; auto.
Qed.
Lemma wires_of_b st st' A N l w ws1 ws2 : Lin st A N -> ~ isq st w -> w < s_next st -> more st st' -> wires_of st' l (ws1 ++ ws2) -> wires_of st' l (ws1 ++ w :: ws2).
Proof.
  intros L H Lt M (vq & H1 & H2). exists vq. split; auto. intros x Hx. rewrite <- H2 by auto. rewrite !count_occ_app. simpl. destruct (Nat.eq_dec w x) as [X|]; auto. subst. exfalso. apply H. destruct M as (_ & _ & M). apply M; auto.
Qed.
Lemma find_all_lin ts : forall st A N qs bs ps st' vs us, Lin st A N -> good_args st qs bs -> NoDup (map a_reg qs) -> NoDup (map a_reg bs) -> (forall a, In a qs -> ~ A (a_reg a)) -> params_lin st ps ->
  find_typed_wires st ts qs bs ps = Ok (st', vs, us) ->
  Lin st' A N /\ more st st' /\ same_keys st st' /\ Forall plain_ty ts /\ Forall (fun w => w < s_next st') (vs ++ us) /\ wires_of st' (firstn (qubits_of ts) qs) (vs ++ us).
Proof.
  induction ts as [|t ts IH]; intros st A N qs bs ps st' vs us L G Nq Nb Na Pk Q; cbn [DecModel.find_typed_wires] in Q.
  - injection Q as <- <- <-. split; auto. split; [apply more_refl|]. split; [intros ?; reflexivity|]. split; [constructor|]. split; [constructor|]. exists []. split; [constructor|auto].
  - destruct (find_typed_wire st t qs bs ps) as [[[[[st1 w] qs1] bs1] ps1]|] eqn:F1; [|discriminate]. cbn [bind] in Q.
    destruct (find_typed_wires st1 ts qs1 bs1 ps1) as [[[st2 vs2] us2]|] eqn:F2; [|discriminate]. cbn [bind] in Q.
    destruct (find_lin _ _ _ _ _ _ _ _ _ _ _ _ L G Na F1) as (L1 & M1 & K1 & Fw). pose proof (params_more _ _ _ M1 Pk) as Pk1.
    destruct G as [Gq Gb]. destruct (of_cons t ts) as (O1 & _ & _). rewrite O1.
    assert (Bits : t = TB \/ t = TT -> found_lin st TB qs bs ps st1 w qs1 bs1 ps1 -> vs = w :: vs2 /\ us = us2 /\ st2 = st' ->
      Lin st' A N /\ more st st' /\ same_keys st st' /\ Forall plain_ty (t :: ts) /\ Forall (fun w => w < s_next st') (vs ++ us) /\ wires_of st' (firstn (qubits_of ts) qs) (vs ++ us)).
    { clear Fw Q. intros Ht (a & -> & -> & -> & Nw & Fr & Lt) (-> & -> & ->). inversion Nb as [|? ? N1 N2]; subst.
      assert (G1 : good_args st1 qs bs1).
      { split; intros x Hx; rewrite Fr; [apply Gq; auto|discriminate|apply Gb; now right|]. intros [= X]. apply N1. rewrite <- X. apply in_map; auto. }
      destruct (IH _ A N _ _ _ _ _ _ L1 G1 Nq N2 Na Pk1 F2) as (L2 & M2 & K2 & Pl & Lts & Wo).
      split; auto. split; [eapply more_trans; eauto|]. split; [eapply same_keys_trans; eauto|]. split; [constructor; auto; unfold plain_ty; tauto|].
      split; [constructor; auto; destruct M2; lia|]. exact (wires_of_b st1 st' A N _ w [] (vs2 ++ us2) L1 Nw Lt M2 Wo). }
    destruct t; cbn [found_lin] in Fw; try contradiction.
    + clear Bits. destruct Fw as (a & -> & -> & -> & Hw & Fr). injection Q as <- <- <-. inversion Nq as [|? ? N1 N2]; subst.
      assert (G1 : good_args st1 qs1 bs).
      { split; intros x Hx; rewrite Fr; [apply Gq; now right| |apply Gb; auto|discriminate]. intros [= X]. apply N1. rewrite <- X. apply in_map; auto. }
      destruct (IH _ A N _ _ _ _ _ _ L1 G1 N2 Nb ltac:(intros; apply Na; now right) Pk1 F2) as (L2 & M2 & K2 & Pl & Lts & Wo).
      split; auto. split; [eapply more_trans; eauto|]. split; [eapply same_keys_trans; eauto|]. split; [constructor; auto; now left|].
      split; [constructor; auto; apply (holds_lt _ _ _ _ _ L1) in Hw; destruct M2; lia|]. exact (wires_of_q _ _ _ _ _ _ _ _ L2 Hw M2 Wo).
    + injection Q as Q1 Q2 Q3. apply Bits; auto.
    + injection Q as Q1 Q2 Q3. apply Bits; auto.
    + clear Bits. destruct Fw as (-> & -> & -> & ->). injection Q as <- <- <-. inversion Pk as [|? ? [Pk2 Pk3] Pk4]; subst.
      destruct (IH _ A N _ _ _ _ _ _ L (conj Gq Gb) Nq Nb Na Pk4 F2) as (L2 & M2 & K2 & Pl & Lts & Wo).
      split; auto. split; auto. split; auto. split; [constructor; auto; unfold plain_ty; tauto|].
      split; [rewrite Forall_app in *; destruct Lts; split; auto; constructor; auto; destruct M2; lia|]. exact (wires_of_b _ _ _ _ _ _ _ _ L Pk3 Pk2 M2 Wo).
Qed.

(** ** Commands *)
Definition none : nat -> Prop := fun _ => False.
Lemma same_tracker_holds (st st' : state) r w : same_tracker Op E st st' -> (holds st' r w <-> holds st r w).
Proof. intros (A & _ & C). unfold holds. rewrite A, C. reflexivity. Qed.
Lemma load_lin es : forall st A N st' ws, Lin st A N -> load_params st es = (st', ws) -> Lin st' A N /\ more st st' /\ same_tracker Op E st st' /\ params_lin st' ws.
Proof.
  induction es as [|x es IH]; intros st A N st' ws L Q; cbn [load_params] in Q.
  - injection Q as <- <-. split; auto. split; [apply more_refl|]. split; [split; auto|constructor].
  - assert (X : exists st1 ws1, load_params (fst (add_node st (IParam x) [] [] [TP])) es = (st1, ws1) /\ st' = st1 /\ ws = s_next st :: ws1).
    { destruct (add_node st (IParam x) [] [] [TP]) as [s0 w0] eqn:An. unfold add_node in An. injection An as <- <-. cbn [fst].
      match type of Q with (let (_, _) := ?l in _) = _ => destruct l as [s1 w1] eqn:Lp end. injection Q as <- <-. exists s1, w1. repeat split; auto. }
    destruct X as (st1 & ws1 & Lp & -> & ->).
    assert (L1 : Lin (fst (add_node st (IParam x) [] [] [TP])) A N) by (apply lin_add_plain; auto).
    destruct (IH _ A N _ _ L1 Lp) as (L2 & M2 & (T1 & T2 & T3) & Pk). split; auto. split; [eapply more_trans; [apply more_add|exact M2]|]. split; [split; [|split]; etransitivity; eauto|].
    constructor; auto. destruct M2 as (M2 & _ & M3). split; [cbn in M2; lia|]. rewrite M3 by (cbn; lia). eapply not_new; eauto.
Qed.
Lemma register_lin ts : forall st ws qs bs st', Lin st (fun r => In r (map a_reg qs)) (fun w => In w ws /\ isq st w) -> length ws = length ts -> NoDup ws -> Forall2 (fun w t => t = TQ <-> isq st w) ws ts ->
  Forall (fun w => w < s_next st /\ ~ In w (map fst (s_wires st))) ws -> NoDup (map a_reg qs) -> Forall out_ty ts -> qubits_of ts = length qs -> bits_of ts = length bs ->
  (forall a, In a qs -> In (a_reg a) (map fst (s_latest st Qb))) -> (forall a, In a bs -> In (a_reg a) (map fst (s_latest st Bt))) ->
  register_outputs st ws ts qs bs = Ok st' -> Lin st' none none /\ same_keys st st'.
Proof.
  induction ts as [|t ts IH]; intros st [|w ws] qs bs st' L Len N Fq Fw Nq Pl Hq Hb Kq Kb Q; try discriminate.
  - destruct qs; [|discriminate]. destruct bs; [|discriminate]. cbn in Q. injection Q as <-. split; [|intros ?; reflexivity]. eapply lin_ext; [| |exact L]; [simpl; tauto|]. intros w. unfold none. simpl. tauto.
  - inversion Fw as [|? ? [Fw1 Fw2] Fw3]; subst. inversion N as [|? ? N1 N2]; subst. inversion Pl as [|? ? Pt Pts]; subst. inversion Fq as [|? ? ? ? Fq1 Fq2]; subst.
    destruct (of_cons t ts) as (O1 & O2 & _). rewrite O1 in Hq. rewrite O2 in Hb. injection Len as Len.
    assert (Step : forall k r qs' bs', In r (map fst (s_latest st k)) ->
      Lin (track_one st k w t r) (fun r => In r (map a_reg qs')) (fun w0 => In w0 ws /\ isq (track_one st k w t r) w0) ->
      NoDup (map a_reg qs') -> qubits_of ts = length qs' -> bits_of ts = length bs' ->
      (forall a, In a qs' -> In (a_reg a) (map fst (s_latest st Qb))) -> (forall a, In a bs' -> In (a_reg a) (map fst (s_latest st Bt))) ->
      register_outputs (track_one st k w t r) ws ts qs' bs' = Ok st' -> Lin st' none none /\ same_keys st st').
    { intros k r qs' bs' Kr L' Nq' Hq' Hb' Kq' Kb' Q'. destruct (track_one_fields Op E st k w t r) as (F1 & F2 & (d & F3 & _) & _). pose proof (track_one_keys Op E st k w t r Kr) as Ks.
      destruct (IH (track_one st k w t r) ws qs' bs' st') as [A1 A2]; auto.
      - clear - Fq2 F1. revert Fq2. generalize ts ws. induction 1 as [|x0 t0 l0 l1 X0]; constructor; auto. rewrite (proj1 (same_uses st _ x0 F1)). exact X0.
      - rewrite F2, F3. rewrite Forall_forall in Fw3 |- *. intros x Hx. destruct (Fw3 x Hx). split; auto. rewrite map_app, in_app_iff. simpl. intros [X|[X|[]]]; auto. subst x. contradiction.
      - intros a Ha. rewrite Ks. auto.
      - intros a Ha. rewrite Ks. auto.
      - split; auto. eapply same_keys_trans; eauto. }
    destruct Pt as [-> | Pt].
    + destruct qs as [|a qs]; [discriminate|]. cbn in Hq, Hb. injection Hq as Hq. inversion Nq as [|? ? Na Nq']; subst.
      apply (Step Qb (a_reg a) qs bs); auto; [apply Kq; now left| |intros; apply Kq; now right].
      destruct (track_one_fields Op E st Qb w TQ (a_reg a)) as (F1 & _).
      eapply lin_ext; [| |apply lin_track_q with (w := w) (r := a_reg a); [exact L|split; [now left|apply Fq1; reflexivity]|left; now left]].
      * intros r _. simpl. split; [|intros Hr; split; auto; intros ->; contradiction]. intros [[X|X] Y]; [congruence|auto].
      * intros x. cbn beta. rewrite (proj1 (same_uses st _ x F1)). simpl. split; [intros [[[X|X] Y] Z]; [congruence|auto]|]. intros [X Y]. split; [auto|]. intros ->. contradiction.
    + destruct bs as [|a bs]; [destruct Pt as [-> | ->]; discriminate|].
      assert (X : qubits_of [t] = 0 /\ bits_of [t] = 1 /\ count_or_default t = {| cq := 0; cb := 1; cp := 0 |}) by (destruct Pt as [-> | ->]; auto). destruct X as (X1 & X2 & X3).
      assert (Nw : ~ isq st w) by (intros X; apply Fq1 in X; destruct Pt as [-> | ->]; discriminate).
      rewrite X1 in *. rewrite X2 in *. cbn in Hq, Hb. injection Hb as Hb. cbn [register_outputs] in Q. rewrite X3 in Q. cbn [cq cb firstn skipn length Nat.eqb andb map] in Q.
      apply (Step Bt (a_reg a) qs bs); auto; [apply Kb; now left| |intros; apply Kb; now right].
      destruct (track_one_fields Op E st Bt w t (a_reg a)) as (F1 & _).
      eapply lin_ext; [| |apply lin_track_b; [exact L| | | |]]; auto; [reflexivity|]. intros x. cbn beta. rewrite (proj1 (same_uses st _ x F1)). simpl. split; [intros [[Y|Y] Z]; [subst; contradiction|auto]|tauto].
Qed.
Lemma wires_of_nodup st l vq : str st -> NoDup (map a_reg l) -> Forall2 (fun a w => holds st (a_reg a) w) l vq -> NoDup vq.
Proof.
  intros S0 N H. induction H as [|a w l vq Ha H IH]; constructor; inversion N; subst; auto. intros X. assert (Y : exists b, In b l /\ holds st (a_reg b) w).
  { clear - H X. induction H as [|b x l vq Hb H IH]; [destruct X|]. destruct X as [<-|X]; [exists b; split; auto; now left|]. destruct (IH X) as (c & C1 & C2). exists c. split; auto. now right. }
  destruct Y as (b & Hb & Y). pose proof (holds_inj _ _ _ _ S0 Ha Y) as Q. apply H2. rewrite Q. apply in_map; auto.
Qed.
Lemma wires_of_in st l vq w : Forall2 (fun a w => holds st (a_reg a) w) l vq -> In w vq -> exists a, In a l /\ holds st (a_reg a) w.
Proof. intros H X. induction H as [|b x l vq Hb H IH]; [destruct X|]. destruct X as [<-|X]; [exists b; split; auto; now left|]. destruct (IH X) as (c & C1 & C2). exists c. split; auto. now right. Qed.
Lemma wires_of_arg st l vq a : Forall2 (fun a w => holds st (a_reg a) w) l vq -> In a l -> exists w, In w vq /\ holds st (a_reg a) w.
Proof. intros H X. induction H as [|b x l vq Hb H IH]; [destruct X|]. destruct X as [<-|X]; [exists x; split; auto; now left|]. destruct (IH X) as (c & C1 & C2). exists c. split; auto. now right. Qed.
(** The wires of qubits in [ws] occur once. *)
Lemma wires_of_count st l ws : str st -> NoDup (map a_reg l) -> wires_of st l ws -> forall w, isq st w ->
  (count_occ Nat.eq_dec ws w = 0 /\ ~ (exists r, In r (map a_reg l) /\ holds st r w)) \/ (count_occ Nat.eq_dec ws w = 1 /\ exists r, In r (map a_reg l) /\ holds st r w).
Proof.
  intros S0 N (vq & H1 & H2) w Hw. rewrite H2 by auto. pose proof (wires_of_nodup _ _ _ S0 N H1) as Nv. destruct (in_dec Nat.eq_dec w vq) as [I|I].
  - right. split; [apply NoDup_count_occ'; auto|]. destruct (wires_of_in _ _ _ _ H1 I) as (a & A1 & A2). exists (a_reg a). split; auto. apply in_map; auto.
  - left. split; [apply count_occ_not_In; auto|]. intros (r & R1 & R2). apply in_map_iff in R1. destruct R1 as (a & <- & R1). destruct (wires_of_arg _ _ _ _ H1 R1) as (w' & W1 & W2). rewrite (holds_fun _ _ _ _ S0 R2 W2) in I. contradiction.
Qed.
Lemma lin_use st A N i l ws ti to : Lin st A N -> Forall (fun w => w < s_next st) ws -> wires_of st l ws -> NoDup (map a_reg l) -> (forall a, In a l -> ~ A (a_reg a)) ->
  let st' := fst (add_node st i ws ti to) in Lin st' (fun r => A r \/ In r (map a_reg l)) (fun w => N w \/ (isq st' w /\ s_next st <= w)).
Proof.
  intros L Lt W Nd Na. pose proof (wires_of_count _ _ _ (n_str _ _ _ L) Nd W) as C. apply lin_add; auto.
  - intros w Hw. destruct (C w Hw) as [[X Y]|[X (r & R1 & R2)]]; auto. right. split; auto. exists r. split; auto. split; auto. apply in_map_iff in R1. destruct R1 as (a & <- & R1). auto.
  - intros r w Hr Hh. destruct (C w (holds_isq _ _ _ _ _ L Hh)) as [[X Y]|[X _]]; auto. exfalso. apply Y. eauto.
Qed.
Lemma emit_lin st i ti to qs bs bo ws st' : Lin st none none -> Forall (fun w => w < s_next st) ws -> wires_of st qs ws -> NoDup (map a_reg qs) -> Forall out_ty to -> qubits_of to = length qs -> bits_of to = length bo ->
  (forall a, In a qs -> In (a_reg a) (map fst (s_latest st Qb))) -> (forall a, In a bo -> In (a_reg a) (map fst (s_latest st Bt))) ->
  register_outputs (fold_left (fun st a => mark_outdated st Bt (a_id a)) bs (fst (add_node st i ws ti to))) (seq (s_next st) (length to)) to qs bo = Ok st' ->
  Lin st' none none /\ same_keys st st'.
Proof.
  intros L Lt W Nd Po Hq Hb Kq Kb Q. pose proof (lin_use st none none i qs ws ti to L Lt W Nd ltac:(intros ? _ [])) as L1. cbv zeta in L1.
  rewrite marks_map in Q. set (st1 := fst (add_node st i ws ti to)) in *.
  assert (M : forall l st0, s_nodes (fold_left (fun st i => mark_outdated st Bt i) l st0) = s_nodes st0 /\ s_next (fold_left (fun st i => mark_outdated st Bt i) l st0) = s_next st0 /\ s_wires (fold_left (fun st i => mark_outdated st Bt i) l st0) = s_wires (st0 : state) /\ s_latest (fold_left (fun st i => mark_outdated st Bt i) l st0) = s_latest st0).
  { induction l as [|x l IH]; intros st0; cbn [fold_left]; auto. destruct (IH (mark_outdated st0 Bt x)) as (-> & -> & -> & ->). auto. }
  destruct (M (map a_id bs) st1) as (M1 & M2 & M3 & M4). pose proof (lin_marks (map a_id bs) _ _ _ L1) as L2. set (st2 := fold_left _ (map a_id bs) st1) in *.
  assert (Sq : forall w, isq st2 w <-> isq st1 w) by (intros; apply same_uses; auto).
  destruct (register_lin to st2 (seq (s_next st) (length to)) qs bo st') as [A1 A2]; auto; try (rewrite M4; auto; fail).
  - eapply lin_ext; [| |exact L2]; [unfold none; tauto|]. intros w. rewrite Sq. unfold none. split; [|intros [X Y]; apply in_seq in X; right; split; [auto|lia]].
    intros [[]|[X Y]]. split; auto. apply in_seq. apply (isq_lt _ _ _ _ L1) in X. cbn in X. lia.
  - apply seq_length.
  - apply seq_NoDup.
  - apply (forall_seq _ TQ). intros j Hj. rewrite Sq. symmetry. apply isq_new; auto; [exact (n_defs _ _ _ L)|]. apply (plain_of_out Op unit unit run0 prun0 read_op) in Po. rewrite Forall_forall in Po. apply Po. apply nth_In; auto.
  - rewrite M2, M3. apply Forall_forall. intros w Hw. apply in_seq in Hw. split; [cbn; lia|]. intros X. apply (key_lt st) in X; [lia|apply (n_str _ _ _ L)].
  - split; auto. intros k. rewrite (A2 k), M4. reflexivity.
Qed.
Variable POp : Type.
Variable lookup : POp -> nat -> nat -> nat -> option (dec Op).
Variable opaque : POp -> Op.
Notation process_command := (process_command lookup opaque read_op make_op).
Notation run_decoder := (run_decoder lookup opaque read_op make_op).
Definition sound_out (o : POp) : Prop := forall nq nb np d, lookup o nq nb np = Some d -> forall t, In t (d_out d) -> t = TQ \/ t = TB \/ t = TT.
Lemma process_lin st c st' : Lin st none none -> NoDup (p_args c) -> sound_out (p_op c) -> process_command st c = Ok st' -> Lin st' none none /\ same_keys st st'.
Proof.
  intros L Nd U Q. unfold DecModel.process_command in Q. destruct (n_str _ _ _ L) as [e I].
  destruct (args_to_elems st (p_args c)) as [[qs bs]|] eqn:A; [|discriminate]. cbn [bind] in Q.
  destruct (args_ok _ _ _ _ _ _ _ _ _ _ _ I A) as (Mq & Mb & G).
  destruct (load_params st (p_params c)) as [st1 ps] eqn:Lo.
  destruct (load_lin _ _ _ _ _ _ L Lo) as (L1 & M1 & Tk & Pk).
  assert (G1 : good_args st1 qs bs) by (destruct G; split; intros; rewrite (tracked_same Op E st st1); auto).
  destruct (n_str _ _ _ L1) as [e1 I1]. destruct (good_keys _ _ _ _ _ _ _ _ _ _ I1 G1) as [Kq Kb].
  assert (Ks1 : same_keys st st1) by (intros k; destruct Tk as (_ & _ & ->); reflexivity).
  assert (Nq : NoDup (map a_reg qs)) by (rewrite Mq; apply NoDup_filter; auto).
  assert (Nb : NoDup (map a_reg bs)) by (rewrite Mb; apply NoDup_filter; auto).
  destruct (lookup (p_op c) (length qs) (length bs) (length ps)) as [d|] eqn:Lk.
  - destruct (Nat.ltb_spec (length bs) (d_take d)) as [|Ht]; [discriminate|]. destruct (Nat.ltb_spec (length bs) (d_drop d)) as [|Hd]; [discriminate|]. cbn [orb] in Q.
    unfold add_node_with_wires in Q.
    destruct (negb _) eqn:C1 in Q; [discriminate|]. destruct (negb _) eqn:C2 in Q; [discriminate|].
    destruct (find_typed_wires st1 (d_in d) qs (firstn (d_take d) bs) ps) as [[[st2 vs] us]|] eqn:F; [|discriminate]. cbn [bind] in Q.
    apply negb_false_iff in C1, C2. rewrite !andb_true_iff, !Nat.eqb_eq in C1, C2.
    pose proof (out_forall _ (U _ _ _ _ Lk)) as Uo. rewrite (csum_plain _ (plain_of_out Op unit unit run0 prun0 read_op _ Uo)) in C2. cbn [cq cb cp] in C2.
    assert (G1' : good_args st1 qs (firstn (d_take d) bs)).
    { destruct G1 as [X Y]. split; auto. intros a Ha. apply Y. rewrite <- (firstn_skipn (d_take d)). apply in_or_app; auto. }
    assert (Nb' : NoDup (map a_reg (firstn (d_take d) bs))).
    { rewrite <- (firstn_skipn (d_take d) bs), map_app in Nb. apply nodup_left in Nb. exact Nb. }
    destruct (find_all_lin _ _ none none _ _ _ _ _ _ L1 G1' Nq Nb' ltac:(intros ? _ []) Pk F) as (L2 & M2 & Ks2 & Pl & Lts & Wo).
    rewrite (csum_plain _ Pl) in C1. cbn [cq cb cp] in C1. destruct C1 as [[C1a C1b] C1c]. destruct C2 as [[C2a C2b] C2c]. rewrite C1a, firstn_all in Wo.
    destruct (add_node st2 (IEmit (d_op d)) (vs ++ us) (d_in d) (d_out d)) as [s0 w0] eqn:An.
    assert (s0 = fst (add_node st2 (IEmit (d_op d)) (vs ++ us) (d_in d) (d_out d)) /\ w0 = seq (s_next st2) (length (d_out d))) as [-> ->] by (rewrite An; unfold add_node in An; injection An as _ <-; auto).
    destruct (emit_lin st2 (IEmit (d_op d)) (d_in d) (d_out d) qs (firstn (d_take d) bs) (skipn (d_drop d) bs) (vs ++ us) st' L2 Lts Wo Nq Uo C2a C2b) as [A1 A2]; auto.
    + intros a Ha. rewrite Ks2. auto.
    + intros a Ha. rewrite Ks2. apply Kb. rewrite <- (firstn_skipn (d_drop d) bs). apply in_or_app; auto.
    + split; auto. do 2 (eapply same_keys_trans; eauto).
  - unfold build_opaque in Q. set (tv := repeat TQ (length qs) ++ repeat TB (length bs)) in *.
    destruct (find_typed_wires st1 (tv ++ repeat TP (length ps)) qs bs ps) as [[[st2 vs] us]|] eqn:F; [|discriminate]. cbn [bind] in Q.
    destruct (find_all_lin _ _ none none _ _ _ _ _ _ L1 G1 Nq Nb ltac:(intros ? _ []) Pk F) as (L2 & M2 & Ks2 & Pl & Lts & Wo).
    assert (T1 : qubits_of (repeat TQ (length qs)) = length qs /\ bits_of (repeat TQ (length qs)) = 0).
    { unfold qubits_of, bits_of. clear. induction qs; simpl; auto. destruct IHqs as (-> & ->). auto. }
    assert (T2 : qubits_of (repeat TB (length bs)) = 0 /\ bits_of (repeat TB (length bs)) = length bs).
    { unfold qubits_of, bits_of. clear. induction bs; simpl; auto. destruct IHbs as (-> & ->). auto. }
    assert (T3 : qubits_of (repeat TP (length ps)) = 0).
    { unfold qubits_of. clear. induction ps; simpl; auto. }
    assert (Tq : qubits_of tv = length qs) by (unfold tv, qubits_of in *; rewrite of_app; lia).
    assert (Tb : bits_of tv = length bs) by (unfold tv, bits_of in *; rewrite of_app; lia).
    assert (Tq' : qubits_of (tv ++ repeat TP (length ps)) = length qs) by (unfold qubits_of in *; rewrite of_app; lia).
    rewrite Tq', firstn_all in Wo.
    assert (Uo : Forall out_ty tv) by (apply Forall_forall; intros t Ht; apply in_app_or in Ht; destruct Ht as [Ht|Ht]; apply repeat_spec in Ht; unfold out_ty; auto).
    assert (Lt : length tv = length qs + length bs) by (unfold tv; rewrite app_length, !repeat_length; reflexivity).
    destruct (add_node st2 (IEmit (opaque (p_op c))) (vs ++ us) (tv ++ repeat TP (length ps)) tv) as [s0 w0] eqn:An.
    assert (s0 = fst (add_node st2 (IEmit (opaque (p_op c))) (vs ++ us) (tv ++ repeat TP (length ps)) tv) /\ w0 = seq (s_next st2) (length tv)) as [-> ->] by (rewrite An; unfold add_node in An; injection An as _ <-; auto).
    pose proof (opaque_register Op E qs (fst (add_node st2 (IEmit (opaque (p_op c))) (vs ++ us) (tv ++ repeat TP (length ps)) tv)) (seq (s_next st2) (length tv)) bs ltac:(rewrite seq_length; auto)) as Or.
    fold tv in Or. rewrite Q in Or.
    destruct (emit_lin st2 (IEmit (opaque (p_op c))) (tv ++ repeat TP (length ps)) tv qs [] bs (vs ++ us) st' L2 Lts Wo Nq Uo Tq Tb) as [A1 A2]; auto.
    + intros a Ha. rewrite Ks2. auto.
    + intros a Ha. rewrite Ks2. auto.
    + split; auto. do 2 (eapply same_keys_trans; eauto).
Qed.
Lemma run_lin cs : forall st st', Lin st none none -> (forall c, In c cs -> NoDup (p_args c) /\ sound_out (p_op c)) -> run_decoder st cs = Ok st' -> Lin st' none none /\ same_keys st st'.
Proof.
  induction cs as [|c cs IH]; intros st st' L H Q; cbn [DecModel.run_decoder] in Q.
  - injection Q as <-. split; auto. intros ?; reflexivity.
  - destruct (process_command st c) as [st1|] eqn:P1; [|discriminate]. cbn [bind] in Q. destruct (H c (or_introl eq_refl)) as [H1 H2].
    destruct (process_lin _ _ _ L H1 H2 P1) as [L1 K1]. destruct (IH _ _ L1 (fun c Hc => H c (or_intror Hc)) Q) as [L2 K2]. split; auto. eapply same_keys_trans; eauto.
Qed.

(** ** Inputs *)
Lemma holds_reg st r w : holds st r w -> In r (map fst (s_latest st Qb)).
Proof. intros (id & d & X & _). apply in_map_iff. exists (r, id). auto. Qed.
Lemma track_one_new st k w t r k' : ~ In r (map fst (s_latest st k)) -> map fst (s_latest (track_one st k w t r) k') = map fst (s_latest st k') ++ if kind_eqb k' k then [r] else [].
Proof.
  intros Kr. destruct (track_one_fields Op E st k w t r) as (_ & _ & _ & _ & F5). rewrite F5. unfold upd. destruct (kind_eqb k' k) eqn:Kq'; [|now rewrite app_nil_r]. assert (k' = k) as -> by (destruct k', k; auto; discriminate).
  rewrite keys_insert. apply mem_not_in in Kr. now rewrite Kr.
Qed.
Lemma inputs_lin ts : forall st ws qs bs st' qs' bs', Lin st none (fun w => In w ws /\ isq st w) -> length ws = length ts -> NoDup ws -> Forall2 (fun w t => t = TQ <-> isq st w) ws ts ->
  Forall (fun w => w < s_next st /\ ~ In w (map fst (s_wires st))) ws -> Forall plain_ty ts -> NoDup (map fst (s_latest st Qb) ++ qs) -> NoDup (map fst (s_latest st Bt) ++ bs) ->
  track_inputs st ws ts qs bs = Ok (st', qs', bs') ->
  Lin st' none none /\ map fst (s_latest st' Qb) ++ qs' = map fst (s_latest st Qb) ++ qs /\ map fst (s_latest st' Bt) ++ bs' = map fst (s_latest st Bt) ++ bs.
Proof.
  induction ts as [|t ts IH]; intros st [|w ws] qs bs st' qs' bs' L Len N Fq Fw Pl Nq Nb Q; try discriminate.
  - cbn in Q. injection Q as <- <- <-. split; auto. eapply lin_ext; [| |exact L]; [tauto|]. intros w. unfold none. simpl. tauto.
  - inversion Fw as [|? ? [Fw1 Fw2] Fw3]; subst. inversion N as [|? ? N1 N2]; subst. inversion Pl as [|? ? Pt Pts]; subst. inversion Fq as [|? ? ? ? Fq1 Fq2]; subst. injection Len as Len.
    assert (Go : forall st1 d qs1 bs1, s_nodes st1 = s_nodes st -> s_next st1 = s_next st -> s_wires st1 = s_wires st ++ [(w, d)] -> Lin st1 none (fun w0 => In w0 ws /\ isq st1 w0) ->
      map fst (s_latest st1 Qb) ++ qs1 = map fst (s_latest st Qb) ++ qs -> map fst (s_latest st1 Bt) ++ bs1 = map fst (s_latest st Bt) ++ bs -> track_inputs st1 ws ts qs1 bs1 = Ok (st', qs', bs') ->
      Lin st' none none /\ map fst (s_latest st' Qb) ++ qs' = map fst (s_latest st Qb) ++ qs /\ map fst (s_latest st' Bt) ++ bs' = map fst (s_latest st Bt) ++ bs).
    { intros st1 d qs1 bs1 F1 F2 F3 L1 Kq Kb Q1. rewrite <- Kq, <- Kb. rewrite <- Kq in Nq. rewrite <- Kb in Nb. apply (IH st1 ws qs1 bs1 st' qs' bs'); auto.
      - clear - Fq2 F1. revert Fq2. generalize ts ws. induction 1 as [|x0 t0 l0 l1 X0]; constructor; auto. rewrite (proj1 (same_uses st _ x0 F1)). exact X0.
      - rewrite F2, F3. rewrite Forall_forall in Fw3 |- *. intros x Hx. destruct (Fw3 x Hx). split; auto. rewrite map_app, in_app_iff. simpl. intros [X|[X|[]]]; auto. subst x. contradiction. }
    assert (Keep : forall st1 : state, s_nodes st1 = s_nodes st -> ~ isq st w -> Lin st1 none (fun w0 => In w0 (w :: ws) /\ isq st w0) -> Lin st1 none (fun w0 => In w0 ws /\ isq st1 w0)).
    { intros st1 F1 Nw L1. eapply lin_ext; [| |exact L1]; [tauto|]. intros x. cbn beta. rewrite (proj1 (same_uses st st1 x F1)). simpl. split; [intros [[Y|Y] Z]; [subst; contradiction|auto]|tauto]. }
    assert (Empty : ~ isq st w -> track_inputs (track_wire st w t [] []) ws ts qs bs = Ok (st', qs', bs') ->
      Lin st' none none /\ map fst (s_latest st' Qb) ++ qs' = map fst (s_latest st Qb) ++ qs /\ map fst (s_latest st' Bt) ++ bs' = map fst (s_latest st Bt) ++ bs).
    { intros Nw. eapply Go; try reflexivity. apply Keep; auto. apply lin_track_empty; auto. }
    cbn [track_inputs] in Q. destruct Pt as [-> | Pt].
    + change (count_or_default TQ) with {| cq := 1; cb := 0; cp := 0 |} in Q. cbn [cq cb cp Nat.add Nat.eqb] in Q.
      destruct qs as [|r qs]; [discriminate|]. cbn [firstn skipn length negb Nat.eqb] in Q. change (track_wire st w TQ [r] []) with (track_one st Qb w TQ r) in Q.
      destruct (track_one_fields Op E st Qb w TQ r) as (F1 & F2 & (d & F3 & _) & _).
      assert (Nr : ~ In r (map fst (s_latest st Qb))) by (intros X; apply NoDup_remove_2 in Nq; apply Nq, in_or_app; auto).
      apply (Go (track_one st Qb w TQ r) d qs bs F1 F2 F3); auto.
      * eapply lin_ext; [| |apply lin_track_q with (w := w) (r := r); [exact L|split; [now left|apply Fq1; reflexivity]|right; intros w' Hw; apply holds_reg in Hw; auto]].
        -- unfold none. tauto.
        -- intros x. cbn beta. rewrite (proj1 (same_uses st _ x F1)). simpl. split; [intros [[[X|X] Y] Z]; [congruence|auto]|]. intros [X Y]. split; [auto|]. intros ->. contradiction.
      * rewrite track_one_new by auto. cbn [kind_eqb]. rewrite <- app_assoc. reflexivity.
    + assert (Nw : ~ isq st w) by (intros X; apply Fq1 in X; destruct Pt as [-> | [-> | ->]]; discriminate).
      assert (X : count_or_default t = {| cq := 0; cb := 1; cp := 0 |} /\ fits t Bt \/ count_or_default t = {| cq := 0; cb := 0; cp := 1 |}) by (destruct Pt as [-> | [-> | ->]]; [left; split; [|left]|left; split; [|right]|right]; reflexivity).
      destruct X as [[X Ft]|X]; rewrite X in Q; cbn [cq cb cp Nat.add Nat.eqb firstn length negb skipn] in Q; [|apply Empty; auto].
      destruct bs as [|r bs]; [apply Empty; auto|]. cbn [firstn skipn] in Q. change (track_wire st w t [] [r]) with (track_one st Bt w t r) in Q.
      destruct (track_one_fields Op E st Bt w t r) as (F1 & F2 & (d & F3 & _) & _).
      assert (Nr : ~ In r (map fst (s_latest st Bt))) by (intros Y; apply NoDup_remove_2 in Nb; apply Nb, in_or_app; auto).
      apply (Go (track_one st Bt w t r) d qs bs F1 F2 F3); auto.
      * apply Keep; auto. apply lin_track_b; auto.
      * rewrite track_one_new by auto. cbn [kind_eqb]. rewrite <- app_assoc. reflexivity.
Qed.
Lemma tracks_lin k rs : forall st, Lin st none none -> NoDup (map fst (s_latest st k) ++ rs) ->
  let st' := fst (tracks st k rs) in Lin st' none none /\ map fst (s_latest st' k) = map fst (s_latest st k) ++ rs /\ forall k', k' <> k -> s_latest st' k' = s_latest st k'.
Proof.
  induction rs as [|r rs IH]; intros st L N; cbn [tracks].
  - cbn. rewrite app_nil_r. auto.
  - assert (Nr : ~ In r (map fst (s_latest st k))) by (intros X; apply NoDup_remove_2 in N; apply N, in_or_app; auto).
    assert (L1 : Lin (fst (track st k r)) none none) by (destruct k; [apply lin_zero|apply lin_zero_b]; auto).
    assert (Kk : map fst (s_latest (fst (track st k r)) k) = map fst (s_latest st k) ++ [r]).
    { unfold track. cbn [fst s_latest]. unfold upd. assert (kind_eqb k k = true) as -> by (destruct k; auto). rewrite keys_insert. apply mem_not_in in Nr. now rewrite Nr. }
    assert (Ko : forall k', k' <> k -> s_latest (fst (track st k r)) k' = s_latest st k') by (intros k' Hk; unfold track; cbn [fst s_latest]; unfold upd; destruct k, k'; try reflexivity; congruence).
    destruct (IH _ L1) as (A & B & C); [rewrite Kk, <- app_assoc; exact N|].
    destruct (track st k r) as [st1 i1]. cbn [fst] in *. destruct (tracks st1 k rs) as [st2 l2]. cbn [fst] in *.
    split; auto. split; [rewrite B, Kk, <- app_assoc; reflexivity|]. intros k' Hk. rewrite C, Ko; auto.
Qed.
(** ** Outputs *)
Lemma outputs_lin ts : forall st A N qs bs ps st' ws qs', Lin st A N -> good_args st qs bs -> NoDup (map a_reg qs) -> NoDup (map a_reg bs) -> (forall a, In a qs -> ~ A (a_reg a)) -> params_lin st ps ->
  find_outputs read_op make_op st ts qs bs ps = Ok (st', ws, qs') ->
  Lin st' A N /\ same_keys st st' /\ more st st' /\ Forall (fun w => w < s_next st') ws /\ wires_of st' (firstn (qubits_of ts) qs) ws /\ qs' = skipn (qubits_of ts) qs /\ good_args st' qs' [].
Proof.
  induction ts as [|t ts IH]; intros st A N qs bs ps st' ws qs' L G Nq Nb Na Pk Q; cbn [DecModel.find_outputs] in Q.
  - injection Q as <- <- <-. split; auto. split; [intros ?; reflexivity|]. split; [apply more_refl|]. split; [constructor|]. split; [exists []; split; [constructor|auto]|]. split; [reflexivity|]. destruct G as [Gq Gb]. split; auto. intros ? [].
  - destruct (find_typed_wire st t qs bs ps) as [[[[[st1 w] qs1] bs1] ps1]|] eqn:F1; [|discriminate]. cbn [bind] in Q.
    destruct (find_outputs read_op make_op st1 ts qs1 bs1 ps1) as [[[st2 ws2] qs2]|] eqn:F2; [|discriminate]. cbn [bind] in Q. injection Q as <- <- <-.
    destruct (find_lin _ _ _ _ _ _ _ _ _ _ _ _ L G Na F1) as (L1 & M1 & K1 & Fw). pose proof (params_more _ _ _ M1 Pk) as Pk1.
    destruct G as [Gq Gb]. destruct (of_cons t ts) as (O1 & _ & _). rewrite O1.
    assert (Bits : t = TB \/ t = TT -> found_lin st TB qs bs ps st1 w qs1 bs1 ps1 ->
      Lin st2 A N /\ same_keys st st2 /\ more st st2 /\ Forall (fun w => w < s_next st2) (w :: ws2) /\ wires_of st2 (firstn (qubits_of ts) qs) (w :: ws2) /\ qs2 = skipn (qubits_of ts) qs /\ good_args st2 qs2 []).
    { clear Fw. intros Ht (a & -> & -> & -> & Nw & Fr & Lt). inversion Nb as [|? ? N1 N2]; subst.
      assert (G1 : good_args st1 qs bs1).
      { split; intros x Hx; rewrite Fr; [apply Gq; auto|discriminate|apply Gb; now right|]. intros [= X]. apply N1. rewrite <- X. apply in_map; auto. }
      destruct (IH _ A N _ _ _ _ _ _ L1 G1 Nq N2 Na Pk1 F2) as (L2 & K2 & M2 & Lts & Wo & Rest).
      split; auto. split; [eapply same_keys_trans; eauto|]. split; [eapply more_trans; eauto|].
      split; [constructor; auto; destruct M2; lia|]. split; auto. exact (wires_of_b st1 st2 A N _ w [] ws2 L1 Nw Lt M2 Wo). }
    destruct t; cbn [found_lin] in Fw; try contradiction; try (apply Bits; auto; fail); clear Bits.
    + destruct Fw as (a & -> & -> & -> & Hw & Fr). inversion Nq as [|? ? N1 N2]; subst.
      assert (G1 : good_args st1 qs1 bs).
      { split; intros x Hx; rewrite Fr; [apply Gq; now right| |apply Gb; auto|discriminate]. intros [= X]. apply N1. rewrite <- X. apply in_map; auto. }
      destruct (IH _ A N _ _ _ _ _ _ L1 G1 N2 Nb ltac:(intros; apply Na; now right) Pk1 F2) as (L2 & K2 & M2 & Lts & Wo & Rest).
      split; auto. split; [eapply same_keys_trans; eauto|]. split; [eapply more_trans; eauto|].
      split; [constructor; auto; apply (holds_lt _ _ _ _ _ L1) in Hw; destruct M2; lia|]. split; auto. exact (wires_of_q _ _ _ _ _ _ _ _ L2 Hw M2 Wo).
    + destruct Fw as (-> & -> & -> & ->). inversion Pk as [|? ? [Pk2 Pk3] Pk4]; subst.
      destruct (IH _ A N _ _ _ _ _ _ L (conj Gq Gb) Nq Nb Na Pk4 F2) as (L2 & K2 & M2 & Lts & Wo & Rest).
      split; auto. split; auto. split; auto. split; [constructor; auto; destruct M2; lia|]. split; auto. exact (wires_of_b st st2 A N _ w [] ws2 L Pk3 Pk2 M2 Wo).
Qed.
Lemma not_held st a : str st -> tracked st Qb (a_reg a) = Some a -> wires_with st Qb (a_id a) = [] -> forall w, ~ holds st (a_reg a) w.
Proof.
  intros S0 T W w (id & d & X & Y & Z). destruct S0 as [e I]. destruct (tracked_facts _ _ _ _ _ _ _ _ _ _ _ I T) as (_ & Hi & _).
  assert (id = a_id a). { pose proof (i_nodup _ _ _ _ _ _ _ _ I Qb) as Nd. apply get_in in X, Hi; auto. congruence. } subst id.
  assert (In (w, d) (wires_with st Qb (a_id a))) by (apply filter_In; split; auto; apply mem_in; auto). rewrite W in *. contradiction.
Qed.
Lemma find_some st A N q : Lin st A N -> tracked st Qb (a_reg q) = Some q -> ~ A (a_reg q) -> exists x, find_typed_wire st TQ [q] [] [] = Ok x.
Proof.
  intros L T Na. destruct (n_str _ _ _ L) as [e I]. destruct (tracked_facts _ _ _ _ _ _ _ _ _ _ _ I T) as (_ & Hi & He). pose proof (n_fresh _ _ _ L _ _ _ Hi He) as Of. cbn in Of.
  rewrite find_qubit, Of. destruct (select_lin st A N Qb TQ q [q] [] L eq_refl (or_introl eq_refl) T (fun _ => Na)) as (L1 & M1 & Hh & d & W & Wq & Fd). cbv zeta in *.
  unfold DecProofs.convert. destruct (n_str _ _ _ L1) as [e1 I1]. rewrite (data_of_in _ _ _ _ _ (i_keys _ _ _ _ _ _ _ _ I1) W). cbn [fits] in Fd. rewrite Fd. cbn [ty_eqb bind]. eauto.
Qed.
Lemma free_lin qs : forall st (A : nat -> Prop), Lin st A none -> good_args st qs [] -> NoDup (map a_reg qs) -> (forall a, In a qs -> ~ A (a_reg a)) ->
  let st' := free_qubits read_op make_op st qs in Lin st' (fun r => A r \/ In r (map a_reg qs)) none /\ same_keys st st' /\ more st st'.
Proof.
  induction qs as [|q qs IH]; intros st A L G N Na; cbn [DecModel.free_qubits]; cbv zeta.
  - split; [|split; [intros ?; reflexivity|apply more_refl]]. eapply lin_ext; [| |exact L]; [simpl; tauto|tauto].
  - inversion N as [|? ? N1 N2]; subst. destruct G as [Gq _].
    assert (Na' : forall a, In a qs -> ~ (A (a_reg a) \/ a_reg a = a_reg q)) by (intros a Ha [X|X]; [revert X; apply Na; now right|apply N1; rewrite <- X; apply in_map; auto]).
    assert (Fin : forall st1, same_keys st st1 -> more st st1 -> Lin st1 (fun r => A r \/ r = a_reg q) none -> good_args st1 qs [] ->
      let st' := free_qubits read_op make_op st1 qs in Lin st' (fun r => A r \/ In r (map a_reg (q :: qs))) none /\ same_keys st st' /\ more st st').
    { intros st1 K1 M1 L1 G1. destruct (IH st1 _ L1 G1 N2 Na') as (L2 & K2 & M2). cbv zeta. split; [|split; [eapply same_keys_trans; eauto|eapply more_trans; eauto]].
      eapply lin_ext; [| |exact L2]; [|tauto]. intros r _. simpl. split; [intros [[X|X]|X]; auto|intros [X|[X|X]]; auto]. }
    assert (Tq : tracked st Qb (a_reg q) = Some q) by (apply Gq; now left).
    destruct (wires_with st Qb (a_id q)) eqn:W.
    { pose proof (not_held _ _ (n_str _ _ _ L) Tq W) as Nh. apply Fin; [intros ?; reflexivity|apply more_refl| |split; [intros; apply Gq; now right|intros ? []]].
      eapply lin_ext; [| |exact L]; [|tauto]. intros r (w & Hw). split; [auto|]. intros [X|X]; auto. subst r. exfalso. eapply Nh; eauto. }
    clear W. destruct (find_some st A none q L Tq (Na q (or_introl eq_refl))) as ([[[[st1 w1] qs1] bs1] ps1] & F). rewrite F.
    assert (G1 : good_args st [q] []) by (split; [intros a [X|[]]; rewrite <- X; exact Tq|intros ? []]).
    destruct (find_lin _ _ _ _ _ _ _ _ _ _ _ _ L G1 ltac:(intros a [X|[]]; rewrite <- X; apply Na; now left) F) as (L1 & M1 & K1 & Fw). cbn [found_lin] in Fw. destruct Fw as (a & Qa & _ & _ & Hw & Fr). injection Qa as <- _.
    assert (L2 : Lin (fst (add_node st1 IFree [w1] [TQ] [])) (fun r => A r \/ r = a_reg q) none).
    { eapply lin_ext; [| |apply (lin_use st1 A none IFree [q] [w1] [TQ] [] L1)].
      - intros r _. simpl. split; [intros [X|[X|[]]]; auto|intros [X|X]; auto].
      - intros w. unfold none. split; [|tauto]. intros [[]|[X Y]]. assert (Z : isq st1 w) by (unfold isq in *; rewrite defs_add in X; cbn in X; rewrite app_nil_r in X; exact X). apply (isq_lt _ _ _ _ L1) in Z. lia.
      - constructor; [eapply holds_lt; eauto|constructor].
      - exists [w1]. split; [constructor; auto|reflexivity].
      - simpl. constructor; [intros []|constructor].
      - intros a [X|[]]. rewrite <- X. apply Na. now left. }
    apply Fin; auto.
    + eapply more_trans; [exact M1|apply more_add].
    + split; [|intros ? []]. intros a Ha. change (tracked (fst (add_node st1 IFree [w1] [TQ] [])) Qb (a_reg a)) with (tracked st1 Qb (a_reg a)). rewrite Fr; [apply Gq; now right|].
      intros [= X]. apply N1. rewrite <- X. apply in_map; auto.
Qed.
End Linear.

(** ** Decoded circuits *)
Section Decoded.
Variables Op POp E : Type.
Variable lookup : POp -> nat -> nat -> nat -> option (dec Op).
Variable opaque : POp -> Op.
Variables read_op make_op : Op.
Notation decode := (decode lookup opaque read_op make_op).
Lemma init_lin ti qubits bits (sta : state Op E) qa ba : Forall plain_ty ti -> NoDup qubits -> NoDup bits ->
  track_inputs (start (length ti)) (seq 0 (length ti)) ti qubits bits = Ok (sta, qa, ba) ->
  let inp := combine (seq 0 (length ti)) (map count_or_default ti) in let st0 := fst (tracks (fst (tracks sta Qb qa)) Bt ba) in
  Lin Op E inp st0 none none /\ map fst (s_latest st0 Qb) = qubits /\ map fst (s_latest st0 Bt) = bits.
Proof.
  intros Pl Nq Nb Ti inp st0.
  assert (Hd : map fst inp = seq 0 (length ti)) by (unfold inp; apply map_fst_combine; rewrite seq_length, map_length; auto).
  assert (Iq : Forall2 (fun w t => t = TQ <-> isq Op E inp (start (length ti)) w) (seq 0 (length ti)) ti).
  { apply (forall_seq _ TQ). intros j Hj. cbn [Nat.add]. unfold isq, defs_of. cbn [start s_nodes map flat_map]. rewrite app_nil_r. unfold inp.
    pose proof (fun c => in_outs ti 0 j c Hj) as X. cbn [Nat.add] in X. assert (Pj : plain_ty (nth j ti TQ)) by (rewrite Forall_forall in Pl; apply Pl, nth_In; auto).
    split.
    - intros T. exists (count_or_default TQ). split; [apply X; rewrite T; auto|cbn; lia].
    - intros (c & Hc & Hl). apply X in Hc. subst c. destruct Pj as [Y|[Y|[Y|Y]]]; rewrite Y in *; auto; cbn in Hl; lia. }
  assert (L0 : Lin Op E inp (start (length ti)) none (fun w => In w (seq 0 (length ti)) /\ isq Op E inp (start (length ti)) w)).
  { assert (Df : defs_of Op E inp (start (length ti)) = inp) by (unfold defs_of; cbn; apply app_nil_r).
    constructor.
    - exists []. exact (inv_start Op E unit unit tt (run0 Op) (prun0 Op) read_op _ _ _).
    - rewrite Df. exact Hd.
    - intros l1 n l2 w X. cbn in X. destruct l1; discriminate.
    - intros ? ? ? [].
    - intros ? ? ? ? [].
    - intros w [X Y]. split; auto.
    - intros w Hw. split; [cbn; lia|]. split; [intros _; left; split; auto|intros _; reflexivity]. rewrite <- Hd. destruct Hw as (c & Hc & _). rewrite Df in Hc. apply (in_map fst) in Hc. exact Hc. }
  destruct (inputs_lin Op E inp read_op ti (start (length ti)) (seq 0 (length ti)) qubits bits sta qa ba) as (La & Kqa & Kba); auto using seq_length, seq_NoDup.
  { apply Forall_forall. intros w Hw. apply in_seq in Hw. cbn. split; [lia|tauto]. }
  cbn [start s_latest map app] in Kqa, Kba.
  destruct (tracks_lin Op E inp Qb qa sta La) as (Lb & Kb1 & Kb2); [rewrite Kqa; auto|].
  destruct (tracks_lin Op E inp Bt ba (fst (tracks sta Qb qa)) Lb) as (Lc & Kc1 & Kc2); [rewrite Kb2, Kba by discriminate; auto|].
  fold st0 in Lc, Kc1, Kc2.
  assert (Kq : map fst (s_latest st0 Qb) = qubits) by (rewrite Kc2, Kb1, Kqa by discriminate; auto).
  assert (Kb : map fst (s_latest st0 Bt) = bits) by (rewrite Kc1, Kb2, Kba by discriminate; auto).
  auto.
Qed.
Theorem decode_linear p ti to perm ops oq (c : tcircuit Op E) : Forall plain_ty ti -> sane p -> (forall x, In x (p_commands p) -> sound_out Op POp lookup (p_op x)) ->
  map Some oq = map (fun i => nth_error (p_qubits p) (nth i perm i)) (seq 0 (length (p_qubits p))) -> NoDup oq ->
  decode p ti to perm ops = Ok c -> scoped (untyped c) /\ linear (untyped c).
Proof.
  intros Pl (Nq & Nb & Sane) U0 Ho No Q. unfold DecModel.decode in Q.
  destruct (init ti (p_qubits p) (p_bits p)) as [st0|] eqn:Q0; [|discriminate]. cbn [bind] in Q.
  destruct (run_decoder lookup opaque read_op make_op st0 (p_commands p)) as [st1|] eqn:Q1; [|discriminate]. cbn [bind] in Q.
  destruct (known_qubits st1 perm) as [qs|] eqn:Q2; [|discriminate]. cbn [bind] in Q.
  destruct (known_bits st1) as [bs|] eqn:Q3; [|discriminate]. cbn [bind] in Q.
  destruct (load_params st1 ops) as [st2 ps] eqn:Q4.
  destruct (find_outputs read_op make_op st2 to qs bs ps) as [[[st3 ws] qs']|] eqn:Q5; [|discriminate]. cbn [bind] in Q. injection Q as <-.
  set (inp := combine (seq 0 (length ti)) (map count_or_default ti)).
  (* Inputs *)
  unfold init in Q0. destruct (track_inputs (start (length ti)) (seq 0 (length ti)) ti (p_qubits p) (p_bits p)) as [[[sta qa] ba]|] eqn:Ti; [|discriminate]. cbn [bind] in Q0. injection Q0 as <-.
  destruct (init_lin ti _ _ _ _ _ Pl Nq Nb Ti) as (Lc & Kq & Kb). fold inp in Lc.
  set (st0 := fst (tracks (fst (tracks sta Qb qa)) Bt ba)) in *.
  (* Commands *)
  destruct (run_lin Op E inp read_op make_op POp lookup opaque (p_commands p) st0 st1 Lc) as [L1 Ks1]; auto.
  { intros c Hc. split; [apply Sane; auto|apply U0; auto]. }
  destruct (n_str _ _ _ _ _ _ L1) as [e1 I1].
  apply all_some_ok in Q2, Q3.
  assert (Tq : forall a, In a qs -> tracked st1 Qb (a_reg a) = Some a).
  { intros a Ha. assert (Hs : In (Some a) (map Some qs)) by (apply in_map; auto). rewrite <- Q2 in Hs. apply in_map_iff in Hs. destruct Hs as (i & Hi & _).
    destruct (nth_error _ _) as [[r id]|]; [|discriminate]. cbn [fst] in Hi. destruct (tracked_facts _ _ _ _ _ _ _ _ _ _ _ I1 Hi) as (-> & _). auto. }
  assert (Tb : forall a, In a bs -> tracked st1 Bt (a_reg a) = Some a).
  { intros a Ha. assert (Hs : In (Some a) (map Some bs)) by (apply in_map; auto). rewrite <- Q3 in Hs. apply in_map_iff in Hs. destruct Hs as ([r id] & Hi & _).
    cbn [fst] in Hi. destruct (tracked_facts _ _ _ _ _ _ _ _ _ _ _ I1 Hi) as (-> & _). auto. }
  assert (Mq : map a_reg qs = oq).
  { assert (X : map Some (map a_reg qs) = map Some oq).
    - rewrite Ho, map_map. rewrite <- (map_map Some (option_map a_reg)), <- Q2, map_map.
      rewrite <- (map_length fst (s_latest st1 Qb)), Ks1, Kq. apply map_ext_in. intros i Hi.
      rewrite <- Kq, <- Ks1, nth_error_map. destruct (nth_error (s_latest st1 Qb) (nth i perm i)) as [[r id]|] eqn:Ne; [|reflexivity]. cbn [option_map fst].
      assert (Hin : In (r, id) (s_latest st1 Qb)) by (eapply nth_error_In; eauto).
      destruct (i_elem _ _ _ _ _ _ _ _ I1 Qb r id Hin) as (x & Hx & Rx). unfold tracked. apply get_in in Hin; [|apply (i_nodup _ _ _ _ _ _ _ _ I1)]. rewrite Hin, Hx. cbn. congruence.
    - clear - X. revert oq X. induction (map a_reg qs) as [|a l IH]; intros [|b m]; simpl; intros H; try discriminate; auto. injection H as -> H. f_equal; auto. }
  assert (Mb : map a_reg bs = p_bits p).
  { assert (X : map Some (map a_reg bs) = map Some (p_bits p)).
    - rewrite map_map. rewrite <- (map_map Some (option_map a_reg)), <- Q3, map_map. rewrite <- Kb, <- Ks1, map_map. apply map_ext_in. intros [r id] Hin. cbn [fst].
      destruct (i_elem _ _ _ _ _ _ _ _ I1 Bt r id Hin) as (x & Hx & Rx). unfold tracked. apply get_in in Hin; [|apply (i_nodup _ _ _ _ _ _ _ _ I1)]. rewrite Hin, Hx. cbn. congruence.
    - clear - X. revert X. generalize (p_bits p). induction (map a_reg bs) as [|a l IH]; intros [|b m]; simpl; intros H; try discriminate; auto. injection H as -> H. f_equal; auto. }
  (* Outputs *)
  destruct (load_lin Op E inp ops _ _ _ _ _ L1 Q4) as (L2 & M2 & Tk & Pk).
  assert (G2 : DecProofs.good_args Op E st2 qs bs) by (split; intros a Ha; rewrite (tracked_same Op E st1 st2); auto).
  assert (Ks2 : DecProofs.same_keys Op E st1 st2) by (intros k; destruct Tk as (_ & _ & ->); reflexivity).
  destruct (outputs_lin Op E inp read_op make_op to st2 none none qs bs ps st3 ws qs' L2 G2) as (L3 & Ks3 & M3 & Lts & Wo & Sk & G3); auto; try congruence.
  set (k := qubits_of to) in *. assert (Nqs : NoDup (map a_reg qs)) by congruence.
  assert (Ns : NoDup (map a_reg (firstn k qs) ++ map a_reg qs')) by (rewrite Sk, <- map_app, firstn_skipn; auto).
  destruct (free_lin Op E inp read_op make_op qs' st3 none L3 G3 (nodup_right _ _ Ns)) as (L4 & Ks4 & M4); [intros ? _ []|].
  set (st4 := free_qubits read_op make_op st3 qs') in *. cbv zeta in *.
  assert (Lw : length ws = length to).
  { clear - Q5. revert st2 qs bs ps st3 ws qs' Q5. induction to as [|t ts IH]; intros st2 qs bs ps st3 ws qs' Q; cbn [DecModel.find_outputs] in Q; [injection Q as _ <- _; auto|].
    destruct (find_typed_wire read_op make_op st2 t qs bs ps) as [[[[[a1 a2] a3] a4] a5]|]; [|discriminate]. cbn [bind] in Q.
    destruct (find_outputs read_op make_op a1 ts a3 a4 a5) as [[[b1 b2] b3]|] eqn:F; [|discriminate]. injection Q as _ <- _. simpl. erewrite IH; eauto. }
  set (c := untyped _). assert (Ic : inputs c = inp) by (unfold c, untyped; cbn [inputs t_inputs]; apply map_fst_combine; unfold inp; rewrite combine_length, seq_length, map_length; lia).
  assert (Nc : nodes c = map t_node (s_nodes st4)) by reflexivity.
  assert (Oc : outputs c = ws) by (unfold c, untyped; cbn [outputs t_outputs]; apply map_fst_combine; auto).
  assert (Dc : defs c = defs_of Op E inp st4) by (unfold defs, defs_of; rewrite Ic, Nc; reflexivity).
  pose proof (n_defs _ _ _ _ _ _ L4) as Ds.
  split.
  - split; [|split].
    + rewrite Dc, Ds. apply seq_NoDup.
    + rewrite Ic, Nc. exact (n_scope _ _ _ _ _ _ L4).
    + rewrite Oc, Dc, Ds. intros w Hw. rewrite Forall_forall in Lts. apply Lts in Hw. apply in_seq. destruct M4. lia.
  - intros w Hw Cw. assert (Qw : isq Op E inp st4 w).
    { unfold count_of in Cw. destruct (find (fun x => Nat.eqb (fst x) w) (defs c)) as [[w' c']|] eqn:Fi; [|cbn in Cw; lia]. apply List.find_some in Fi. destruct Fi as [Fi Eq]. apply Nat.eqb_eq in Eq. cbn in Eq. subst w'. exists c'. rewrite <- Dc. auto. }
    assert (Uc : uses c w = U Op E st4 w + count_occ Nat.eq_dec ws w).
    { unfold uses. rewrite Nc, Oc, count_occ_app. reflexivity. }
    rewrite Uc.
    assert (Wo4 : wires_of Op E inp st4 (firstn k qs) ws).
    { destruct Wo as (vq & V1 & V2). exists vq. split; [eapply more_holds; eauto|]. intros x Hx. destruct (le_lt_dec (s_next st3) x) as [X|X].
      - rewrite !(proj1 (count_occ_not_In _ _ _)); auto; intros Y.
        + destruct (wires_of_in _ _ _ _ _ _ V1 Y) as (a & _ & Ha). apply (holds_lt _ _ _ _ _ _ _ _ L3) in Ha. lia.
        + rewrite Forall_forall in Lts. apply Lts in Y. lia.
      - apply V2. destruct M4 as (_ & _ & M4). apply M4; auto. }
    pose proof (wires_of_count Op E inp st4 (firstn k qs) ws (n_str _ _ _ _ _ _ L4) (nodup_left _ _ Ns) Wo4 w Qw) as Cn.
    destruct (n_uses _ _ _ _ _ _ L4 w Qw) as [U1 U2].
    destruct Cn as [[C1 C2]|[C1 (r & R1 & R2)]]; rewrite C1.
    + assert (U Op E st4 w <> 0); [|lia]. intros Z. apply U2 in Z. destruct Z as [[]|(r & R1 & R2)]. apply C2. exists r. split; auto.
      apply holds_reg in R2. rewrite Ks4, Ks3, Ks2, Ks1, Kq in R2.
      assert (Ro : In r oq).
      { apply (NoDup_length_incl (l := oq) (l' := p_qubits p)); auto.
        - apply (f_equal (@length _)) in Ho. rewrite !map_length, seq_length in Ho. lia.
        - intros x Hx. apply (in_map Some) in Hx. rewrite Ho in Hx. apply in_map_iff in Hx. destruct Hx as (i & Hi & _). eapply nth_error_In; eauto. }
      rewrite <- Mq, <- (firstn_skipn k qs), map_app, <- Sk, in_app_iff in Ro. destruct Ro as [Ro|Ro]; auto. exfalso. apply R1. right. exact Ro.
    + assert (U Op E st4 w = 0); [|lia]. apply U2. right. exists r. split; auto. intros [[]|X]. clear - Ns R1 X. revert Ns R1. induction (map a_reg (firstn k qs)) as [|y l IH]; intros N R; [destruct R|]. cbn [app] in N. inversion N; subst. destruct R as [->|R]; auto. apply H1, in_or_app; auto.
Qed.
End Decoded.
