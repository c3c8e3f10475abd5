(** Proofs about the pytket decoder: commands, the start and the end. *)
From Coq Require Import List Bool Arith Lia.
From Verif Require Import EncSpec DecSpec DecModel DecProofs.
Import ListNotations.

Lemma firstn_all' {A} n (l : list A) : length l = n -> firstn n l = l.
Proof. intros <-. apply firstn_all. Qed.
Definition out_ty (t : ty) : Prop := t = TQ \/ t = TB \/ t = TT.
Lemma plain_count t : plain_ty t -> count_or_default t = {| cq := qubits_of [t]; cb := bits_of [t]; cp := params_of [t] |}.
Proof. intros [-> | [-> | [-> | ->]]]; reflexivity. Qed.
Lemma of_cons t ts : qubits_of (t :: ts) = qubits_of [t] + qubits_of ts /\ bits_of (t :: ts) = bits_of [t] + bits_of ts /\ params_of (t :: ts) = params_of [t] + params_of ts.
Proof. unfold qubits_of, bits_of, params_of. destruct t; simpl; auto. Qed.
Lemma csum_plain ts : Forall plain_ty ts -> csum ts = {| cq := qubits_of ts; cb := bits_of ts; cp := params_of ts |}.
Proof.
  induction 1 as [|t ts Ht Hts IH]; [reflexivity|]. destruct (of_cons t ts) as (A & B & C). cbn [csum fold_right]. change (fold_right (fun t c => cadd (count_or_default t) c) czero ts) with (csum ts).
  rewrite IH, (plain_count t Ht), A, B, C. reflexivity.
Qed.
Lemma nodup_left {A} (l m : list A) : NoDup (l ++ m) -> NoDup l.
Proof. induction l as [|a l IH]; intros H; [constructor|]. inversion H; subst. constructor; [intros X; apply H2, in_or_app; auto|auto]. Qed.
Lemma of_app f (l1 l2 : list ty) : length (filter f (l1 ++ l2)) = length (filter f l1) + length (filter f l2).
Proof. rewrite filter_app, app_length. reflexivity. Qed.

Section Step.
Variables Op POp E V P : Type.
Variables (zero one : V) (run : Op -> list V -> list V -> list P -> list V * list V) (prun : Op -> list P -> list P) (den : E -> P).
Variable psem : POp -> list V -> list V -> list P -> list V * list V.
Variables read_op make_op : Op.
Notation state := (state Op E).
Notation env := (env V P).
Notation val := (val V P).
Notation regs := (DecSpec.regs V).
Notation meaning := (meaning Op E V P zero one run prun den).
Notation node_values := (node_values Op E V P zero one run prun den).
Notation Inv := (Inv Op E V P zero).
Notation grows := (grows Op E V P zero one run prun den).
Notation same_keys := (same_keys Op E).
Notation good_args := (good_args Op E).
Notation find_typed_wire := (find_typed_wire read_op make_op).
Notation find_typed_wires := (find_typed_wires read_op make_op).

Lemma gather_ext (e e' : env) ws : (forall w, In w ws -> look e' w = look e w) -> gather e' ws = gather e ws.
Proof. induction ws as [|w ws IH]; intros Q; [reflexivity|]. cbn [gather]. rewrite (Q w (or_introl eq_refl)), IH; auto. intros w' H. apply Q. now right. Qed.
Lemma gather_app (e : env) l1 l2 v1 v2 : gather e l1 = Some v1 -> gather e l2 = Some v2 -> gather e (l1 ++ l2) = Some (vapp V P v1 v2).
Proof.
  revert v1. induction l1 as [|w l1 IH]; intros v1 H1 H2; cbn [gather app] in *.
  - injection H1 as <-. rewrite H2. unfold vapp; simpl. destruct v2; reflexivity.
  - destruct (look e w) as [a|]; [|discriminate]. destruct (gather e l1) as [b|]; [|discriminate]. injection H1 as <-. rewrite (IH b eq_refl H2).
    unfold vapp; cbn. rewrite !app_assoc. reflexivity.
Qed.
Definition pval (p : P) : val := {| vq := []; vb := []; vp := [p] |}.
Definition params_ok (st : state) (e : env) (ps : list wire) (pv : list P) : Prop := Forall2 (fun w p => look e w = Some (pval p) /\ w < s_next st) ps pv.
Lemma params_grow st e st' e' ps pv : grows st e st' e' -> params_ok st e ps pv -> params_ok st' e' ps pv.
Proof. intros (_ & L & Q) H. induction H as [|w p ps pv [A B] _ IH]; constructor; auto. split; [rewrite Q; auto|lia]. Qed.
Lemma same_keys_trans (st st1 st2 : state) : same_keys st st1 -> same_keys st1 st2 -> same_keys st st2.
Proof. intros A B k. now rewrite B. Qed.

Lemma find_typed_wires_ok ts : forall st e R qs bs ps pv st' vs us, Inv st e R -> good_args st qs bs -> NoDup (map a_reg qs) -> NoDup (map a_reg bs) -> params_ok st e ps pv ->
  find_typed_wires st ts qs bs ps = Ok (st', vs, us) ->
  exists e', grows st e st' e' /\ Inv st' e' R /\ same_keys st st' /\ Forall plain_ty ts /\ Forall (fun w => w < s_next st') (vs ++ us) /\
    qubits_of ts <= length qs /\ bits_of ts <= length bs /\ params_of ts <= length pv /\
    gather e' vs = Some {| vq := map (fun a => R Qb (a_reg a)) (firstn (qubits_of ts) qs); vb := map (fun a => R Bt (a_reg a)) (firstn (bits_of ts) bs); vp := [] |} /\
    gather e' us = Some {| vq := []; vb := []; vp := firstn (params_of ts) pv |}.
Proof.
  induction ts as [|t ts IH]; intros st e R qs bs ps pv st' vs us I G Nq Nb Pk Q; cbn [DecModel.find_typed_wires] in Q.
  - injection Q as <- <- <-. exists e. split; [apply grows_refl|]. split; auto. split; [intros ?; reflexivity|]. split; [constructor|]. split; [constructor|]. cbn. repeat split; lia.
  - destruct (find_typed_wire st t qs bs ps) as [[[[[st1 w] qs1] bs1] ps1]|] eqn:F1; [|discriminate]. cbn [bind] in Q.
    destruct (find_typed_wires st1 ts qs1 bs1 ps1) as [[[st2 vs2] us2]|] eqn:F2; [|discriminate]. cbn [bind] in Q.
    destruct (find_typed_wire_ok _ _ _ _ zero one run prun den read_op make_op _ _ _ _ _ _ _ _ _ _ _ _ I G F1) as (e1 & Gr & I1 & K1 & Fw).
    assert (Pk' : params_ok st1 e1 ps pv) by (eapply params_grow; eauto).
    destruct G as [Gq Gb]. destruct (of_cons t ts) as (O1 & O2 & O3). rewrite O1, O2, O3.
    destruct t; cbn [found_wire] in Fw; try contradiction.
    + destruct Fw as (a & -> & -> & -> & Oa & Lw & Fr & Lt). injection Q as <- <- <-. inversion Nq as [|? ? N1 N2]; subst.
      assert (G1 : good_args st1 qs1 bs).
      { split; intros x Hx; rewrite Fr; [apply Gq; now right| |apply Gb; auto|discriminate]. intros [= X]. apply N1. rewrite <- X. apply in_map; auto. }
      destruct (IH _ _ R _ _ _ _ _ _ _ I1 G1 N2 Nb Pk' F2) as (e2 & Gr2 & I2 & K2 & Pl & Lts & B1 & B2 & B3 & Ga & Gu).
      exists e2. split; [eapply grows_trans; eauto|]. split; auto. split; [eapply same_keys_trans; eauto|]. split; [constructor; auto; left; auto|].
      pose proof Gr2 as (_ & Ln & Lk). split; [constructor; auto; lia|]. simpl. do 3 (split; [lia|]). split; auto.
      rewrite (Lk w Lt), Lw, Ga. unfold vapp; cbn. reflexivity.
    + destruct Fw as (a & -> & -> & -> & Oa & Lw & Fr & Lt). injection Q as <- <- <-. inversion Nb as [|? ? N1 N2]; subst.
      assert (G1 : good_args st1 qs bs1).
      { split; intros x Hx; rewrite Fr; [apply Gq; auto|discriminate|apply Gb; now right|]. intros [= X]. apply N1. rewrite <- X. apply in_map; auto. }
      destruct (IH _ _ R _ _ _ _ _ _ _ I1 G1 Nq N2 Pk' F2) as (e2 & Gr2 & I2 & K2 & Pl & Lts & B1 & B2 & B3 & Ga & Gu).
      exists e2. split; [eapply grows_trans; eauto|]. split; auto. split; [eapply same_keys_trans; eauto|]. split; [constructor; auto; right; left; auto|].
      pose proof Gr2 as (_ & Ln & Lk). split; [constructor; auto; lia|]. simpl. do 3 (split; [lia|]). split; auto.
      rewrite (Lk w Lt), Lw, Ga. unfold vapp; cbn. reflexivity.
    + destruct Fw as (a & -> & -> & -> & Oa & Lw & Fr & Lt). injection Q as <- <- <-. inversion Nb as [|? ? N1 N2]; subst.
      assert (G1 : good_args st1 qs bs1).
      { split; intros x Hx; rewrite Fr; [apply Gq; auto|discriminate|apply Gb; now right|]. intros [= X]. apply N1. rewrite <- X. apply in_map; auto. }
      destruct (IH _ _ R _ _ _ _ _ _ _ I1 G1 Nq N2 Pk' F2) as (e2 & Gr2 & I2 & K2 & Pl & Lts & B1 & B2 & B3 & Ga & Gu).
      exists e2. split; [eapply grows_trans; eauto|]. split; auto. split; [eapply same_keys_trans; eauto|]. split; [constructor; auto; right; right; left; auto|].
      pose proof Gr2 as (_ & Ln & Lk). split; [constructor; auto; lia|]. simpl. do 3 (split; [lia|]). split; auto.
      rewrite (Lk w Lt), Lw, Ga. unfold vapp; cbn. reflexivity.
    + destruct Fw as (-> & -> & -> & -> & ->). injection Q as <- <- <-. inversion Pk as [|? p ? pv' [Lw Lt] Pk2]; subst.
      destruct (IH _ _ R _ _ _ _ _ _ _ I (conj Gq Gb) Nq Nb Pk2 F2) as (e2 & Gr2 & I2 & K2 & Pl & Lts & B1 & B2 & B3 & Ga & Gu).
      exists e2. split; auto. split; auto. split; auto. split; [constructor; auto; right; right; right; auto|].
      pose proof Gr2 as (_ & Ln & Lk). split; [rewrite Forall_app in *; destruct Lts; split; auto; constructor; auto; lia|]. simpl. do 3 (split; [lia|]). split; auto.
      rewrite (Lk w Lt), Lw, Gu. unfold vapp; cbn. reflexivity.
Qed.

(** ** Values of the outputs of a node *)
Fixpoint dealt (e : env) (ws : list wire) (ts : list ty) (qv bv : list V) : Prop :=
  match ws, ts with
  | w :: ws, t :: ts => look e w = Some {| vq := firstn (qubits_of [t]) qv; vb := firstn (bits_of [t]) bv; vp := [] |} /\ dealt e ws ts (skipn (qubits_of [t]) qv) (skipn (bits_of [t]) bv)
  | _, _ => True
  end.
Lemma dealt_ext (e e' : env) ws : forall ts qv bv, (forall w, In w ws -> look e' w = look e w) -> dealt e ws ts qv bv -> dealt e' ws ts qv bv.
Proof. induction ws as [|w ws IH]; intros [|t ts] qv bv H D; auto. destruct D as [A B]. split; [rewrite H; auto; now left|]. apply IH; auto. intros; apply H; now right. Qed.
Lemma deal_dealt (e : env) ws : forall ts qv bv, NoDup ws -> Forall plain_ty ts -> length ws = length ts -> dealt (deal (combine ws (map count_or_default ts)) qv bv [] ++ e) ws ts qv bv.
Proof.
  induction ws as [|w ws IH]; intros [|t ts] qv bv N Pl L; simpl; auto; try discriminate. inversion N; subst. inversion Pl; subst. rewrite (plain_count t) by auto. cbn [cq cb cp].
  split.
  - rewrite Nat.eqb_refl, firstn_nil. reflexivity.
  - rewrite skipn_nil. apply dealt_ext with (e := deal (combine ws (map count_or_default ts)) (skipn (qubits_of [t]) qv) (skipn (bits_of [t]) bv) [] ++ e); [|apply IH; auto].
    intros x Hx. simpl. destruct (Nat.eqb_spec w x) as [X|]; subst; [contradiction|]. reflexivity.
Qed.

(** ** Writing registers *)
Lemma put_regs_ext (R R' : regs) k is vs : (forall a b, R a b = R' a b) -> forall a b, put_regs R k is vs a b = put_regs R' k is vs a b.
Proof. revert R R' vs. induction is as [|i is IH]; intros R R' [|v vs] H a b; cbn [put_regs]; auto. apply IH. intros a' b'. unfold put_reg. destruct (_ && _); auto. Qed.
Lemma put_regs_other (R : regs) k is vs k' j : (k' <> k \/ ~ In j is) -> put_regs R k is vs k' j = R k' j.
Proof.
  revert R vs. induction is as [|i is IH]; intros R [|v vs] H; cbn [put_regs]; auto. rewrite IH; [|simpl in H; tauto]. unfold put_reg.
  destruct (kind_eqb k' k) eqn:K; [|reflexivity]. destruct (Nat.eqb_spec j i) as [X|]; [|reflexivity]. destruct k', k; try discriminate; simpl in H; destruct H as [H|H]; try congruence; exfalso; apply H; auto.
Qed.
Lemma put_comm (R : regs) k i v k' is vs : k <> k' -> forall a b, put_regs (put_reg R k i v) k' is vs a b = put_reg (put_regs R k' is vs) k i v a b.
Proof.
  intros N a b. unfold put_reg at 2. destruct (kind_eqb a k) eqn:K; cbn [andb].
  - assert (a = k) as -> by (destruct a, k; auto; discriminate). rewrite put_regs_other by auto. unfold put_reg. rewrite (put_regs_other R) by auto. now rewrite K.
  - assert (forall R1 R2 : regs, (forall b, R1 a b = R2 a b) -> put_regs R1 k' is vs a b = put_regs R2 k' is vs a b) as X.
    { clear. revert vs. induction is as [|i is IH]; intros [|v vs] R1 R2 H; cbn [put_regs]; auto. apply IH. intros b'. unfold put_reg. destruct (_ && _); auto. }
    apply X. intros b'. unfold put_reg. now rewrite K.
Qed.

Lemma register_ok ts : forall st e R ws qs bs qv bv, Inv st e R -> dealt e ws ts qv bv -> length ws = length ts -> NoDup ws -> Forall (fun w => w < s_next st /\ ~ In w (map fst (s_wires st))) ws ->
  Forall out_ty ts -> qubits_of ts = length qs -> length qv = length qs -> bits_of ts = length bs -> length bv = length bs ->
  (forall a, In a qs -> In (a_reg a) (map fst (s_latest st Qb))) -> (forall a, In a bs -> In (a_reg a) (map fst (s_latest st Bt))) ->
  exists st', register_outputs st ws ts qs bs = Ok st' /\ s_nodes st' = s_nodes st /\ s_next st' = s_next st /\ same_keys st st' /\
    Inv st' e (put_regs (put_regs R Qb (map a_reg qs) qv) Bt (map a_reg bs) bv).
Proof.
  induction ts as [|t ts IH]; intros st e R [|w ws] qs bs qv bv I D L N Fw Pl Hq Lq Hb Lb Kq Kb; try discriminate.
  - destruct qs; [|discriminate]. destruct bs; [|discriminate]. destruct qv; [|discriminate]. destruct bv; [|discriminate].
    exists st. split; [reflexivity|]. split; auto. split; auto. split; [intros ?; reflexivity|exact I].
  - inversion Fw as [|? ? [Fw1 Fw2] Fw3]; subst. inversion N as [|? ? N1 N2]; subst. inversion Pl as [|? ? Pt Pts]; subst. destruct D as [D1 D2].
    destruct (of_cons t ts) as (O1 & O2 & O3). rewrite O1 in Hq. rewrite O2 in Hb. injection L as L.
    assert (Step : forall k r v qs' bs' qv' bv', fits t k -> look e w = Some (single V P k v) -> In r (map fst (s_latest st k)) ->
      dealt e ws ts qv' bv' -> qubits_of ts = length qs' -> length qv' = length qs' -> bits_of ts = length bs' -> length bv' = length bs' ->
      (forall a, In a qs' -> In (a_reg a) (map fst (s_latest st Qb))) -> (forall a, In a bs' -> In (a_reg a) (map fst (s_latest st Bt))) ->
      exists st', register_outputs (track_one Op E st k w t r) ws ts qs' bs' = Ok st' /\ s_nodes st' = s_nodes st /\ s_next st' = s_next st /\ same_keys st st' /\
        Inv st' e (put_regs (put_regs (put_reg R k r v) Qb (map a_reg qs') qv') Bt (map a_reg bs') bv')).
    { intros k r v qs' bs' qv' bv' Ft Lk Kr Dd Hq' Lq' Hb' Lb' Kq' Kb'.
      destruct (track_one_fields Op E st k w t r) as (F1 & F2 & (d & F3 & _) & _). pose proof (track_one_keys Op E st k w t r Kr) as Ks.
      destruct (IH (track_one Op E st k w t r) e (put_reg R k r v) ws qs' bs' qv' bv') as (st' & A & B & C & Dk & I'); auto.
      - apply inv_track_one; auto.
      - rewrite F2, F3. rewrite Forall_forall in Fw3 |- *. intros x Hx. destruct (Fw3 x Hx). split; auto. rewrite map_app, in_app_iff. simpl. intros [X|[X|[]]]; auto. subst x. contradiction.
      - intros a Ha. rewrite Ks. auto.
      - intros a Ha. rewrite Ks. auto.
      - exists st'. rewrite B, C, F1, F2. split; auto. split; auto. split; auto. split; [eapply same_keys_trans; eauto|auto]. }
    destruct Pt as [-> | Pt].
    + destruct qs as [|a qs]; [discriminate|]. destruct qv as [|v qv]; [discriminate|]. cbn in Hq, Lq. injection Hq as Hq. injection Lq as Lq. cbn in D1, D2, Hb.
      destruct (Step Qb (a_reg a) v qs bs qv bv) as (st' & A & B); auto; [reflexivity|apply Kq; now left|intros; apply Kq; now right|]. exists st'. split; [exact A|]. exact B.
    + destruct bs as [|a bs]; [destruct Pt as [-> | ->]; discriminate|]. destruct bv as [|v bv]; [discriminate|].
      assert (X : qubits_of [t] = 0 /\ bits_of [t] = 1 /\ count_or_default t = {| cq := 0; cb := 1; cp := 0 |}) by (destruct Pt as [-> | ->]; auto). destruct X as (X1 & X2 & X3).
      rewrite X1 in *. rewrite X2 in *. cbn in Hb, Lb. injection Hb as Hb. injection Lb as Lb. cbn in D1, D2.
      destruct (Step Bt (a_reg a) v qs bs qv bv) as (st' & A & B & C & Dk & I'); auto; [apply Kb; now left|intros; apply Kb; now right|]. exists st'.
      split. { cbn [register_outputs]. rewrite X3. cbn [cq cb firstn skipn length Nat.eqb andb map]. exact A. }
      split; auto. split; auto. split; auto. eapply inv_ext; [|exact I']. intros k r. cbn [map put_regs]. apply put_regs_ext. intros a' b'. apply put_comm. discriminate.
Qed.

(** ** Commands *)
Definition same_tracker (st st' : state) : Prop := s_wires st' = s_wires st /\ s_elems st' = s_elems st /\ s_latest st' = s_latest st.
Lemma load_params_ok es : forall st e R st' ws, Inv st e R -> load_params st es = (st', ws) ->
  exists e', grows st e st' e' /\ Inv st' e' R /\ same_tracker st st' /\ params_ok st' e' ws (map den es).
Proof.
  induction es as [|x es IH]; intros st e R st' ws I Q; cbn [load_params] in Q.
  - injection Q as <- <-. exists e. split; [apply grows_refl|]. split; auto. split; [split; auto|constructor].
  - assert (X : exists st1 ws1, load_params (fst (add_node st (IParam x) [] [] [TP])) es = (st1, ws1) /\ st' = st1 /\ ws = s_next st :: ws1).
    { destruct (add_node st (IParam x) [] [] [TP]) as [s0 w0] eqn:A. unfold add_node in A. injection A as <- <-. cbn [fst].
      match type of Q with (let (_, _) := ?l in _) = _ => destruct l as [s1 w1] eqn:L end. injection Q as <- <-. exists s1, w1. repeat split; auto. }
    destruct X as (st1 & ws1 & L & -> & ->).
    assert (Ga : gather e [] = Some {| vq := []; vb := []; vp := [] |}) by reflexivity.
    pose proof (add_node_grows _ _ _ _ zero one run prun den st e (IParam x) [] [] [TP] _ Ga) as Gr.
    pose proof (inv_add_node _ _ _ _ zero one run prun den st e R (IParam x) [] [] [TP] _ I Ga) as I1.
    destruct (IH _ _ R _ _ I1 L) as (e2 & Gr2 & I2 & (T1 & T2 & T3) & Pk).
    exists e2. split; [eapply grows_trans; eauto|]. split; auto. split; [split; [|split]; etransitivity; eauto|].
    constructor; auto. destruct Gr2 as (_ & Ln & Lk). assert (Z : s_next st < s_next (fst (add_node st (IParam x) [] [] [TP]))) by (cbn; lia).
    split; [|lia]. rewrite Lk by auto. cbn. rewrite Nat.eqb_refl. reflexivity.
Qed.
Lemma args_ok args : forall st e R qs bs, Inv st e R -> args_to_elems st args = Ok (qs, bs) ->
  map a_reg qs = arg_qubits (map fst (s_latest st Bt)) args /\ map a_reg bs = arg_bits (map fst (s_latest st Bt)) args /\ good_args st qs bs.
Proof.
  induction args as [|r args IH]; intros st e R qs bs I Q; cbn [args_to_elems] in Q.
  - injection Q as <- <-. repeat split; intros ? [].
  - destruct (tracked st _ r) as [a|] eqn:Tr; [|discriminate]. destruct (args_to_elems st args) as [[qs1 bs1]|] eqn:A; [|discriminate]. cbn [bind] in Q.
    destruct (IH _ _ _ _ _ I A) as (M1 & M2 & G1 & G2). unfold arg_qubits, arg_bits. cbn [filter]. fold (arg_qubits (map fst (s_latest st Bt)) args). fold (arg_bits (map fst (s_latest st Bt)) args).
    destruct (tracked_facts _ _ _ _ _ _ _ _ _ _ _ I Tr) as (Ra & _).
    destruct (get r (s_latest st Bt)) as [id|] eqn:Gt; injection Q as <- <-.
    + assert (mem r (map fst (s_latest st Bt)) = true) as ->.
      { destruct (mem r _) eqn:Mm; auto. apply mem_not_in, get_none in Mm. congruence. }
      cbn [negb map]. rewrite Ra, M1, M2. repeat split; auto. intros x [X|X]; [subst x; congruence|auto].
    + apply get_none, mem_not_in in Gt. rewrite Gt. cbn [negb map]. rewrite Ra, M1, M2. repeat split; auto. intros x [X|X]; [subst x; congruence|auto].
Qed.
Lemma marks_ok k l : forall st e R, Inv st e R -> let st' := fold_left (fun st a => mark_outdated st k (a_id a)) l st in
  Inv st' e R /\ s_nodes st' = s_nodes st /\ s_next st' = s_next st /\ same_keys st st' /\ s_wires st' = s_wires st.
Proof.
  induction l as [|a l IH]; intros st e R I; cbn [fold_left].
  - split; auto. split; auto. split; auto. split; [intros ?; reflexivity|auto].
  - destruct (IH (mark_outdated st k (a_id a)) e R (inv_mark _ _ _ _ _ _ _ _ _ _ I)) as (A & B & C & D & F). auto.
Qed.
Lemma put_regs_same (R R' : regs) k n : forall is vs, (forall i, R' k i = R k i) ->
  forall a b, put_regs R' k is (firstn n (map (R k) is) ++ vs) a b = put_regs R' k (skipn n is) vs a b.
Proof.
  induction n as [|n IH]; intros is vs H a b; [reflexivity|]. destruct is as [|i is]; [reflexivity|]. cbn [map firstn app put_regs skipn].
  rewrite <- IH by auto. apply put_regs_ext. intros a' b'. rewrite <- H. apply put_same.
Qed.
Lemma plain_of_out ts : Forall out_ty ts -> Forall plain_ty ts.
Proof. intros H. eapply Forall_impl; [|exact H]. unfold out_ty, plain_ty. tauto. Qed.
Lemma map_map_reg (R : regs) k (l : list arg) : map (fun a => R k (a_reg a)) l = map (R k) (map a_reg l).
Proof. now rewrite map_map. Qed.

(** A node is added and its outputs are tracked. *)
Lemma emit_ok st e R o ti to qs bs bo vs us qv bv pv :
  Inv st e R -> gather e vs = Some {| vq := qv; vb := bv; vp := [] |} -> gather e us = Some {| vq := []; vb := []; vp := pv |} ->
  Forall out_ty to -> qubits_of to = length qs -> bits_of to = length bo -> length (fst (run o qv bv pv)) = length qs -> length (snd (run o qv bv pv)) = length bo ->
  (forall a, In a qs -> In (a_reg a) (map fst (s_latest st Qb))) -> (forall a, In a bo -> In (a_reg a) (map fst (s_latest st Bt))) ->
  exists e' st', register_outputs (fold_left (fun st a => mark_outdated st Bt (a_id a)) bs (fst (add_node st (IEmit o) (vs ++ us) ti to))) (seq (s_next st) (length to)) to qs bo = Ok st' /\ grows st e st' e' /\ same_keys st st' /\
    Inv st' e' (put_regs (put_regs R Qb (map a_reg qs) (fst (run o qv bv pv))) Bt (map a_reg bo) (snd (run o qv bv pv))).
Proof.
  intros I G1 G2 Pl Hq Hb Lq Lb Kq Kb.
  pose proof (gather_app _ _ _ _ _ G1 G2) as Ga. unfold vapp in Ga. cbn in Ga. rewrite !app_nil_r in Ga.
  pose proof (add_node_grows _ _ _ _ zero one run prun den st e (IEmit o) (vs ++ us) ti to _ Ga) as Gr.
  pose proof (inv_add_node _ _ _ _ zero one run prun den st e R (IEmit o) (vs ++ us) ti to _ I Ga) as I1.
  destruct (marks_ok Bt bs _ _ _ I1) as (I2 & M1 & M2 & M3 & M4).
  set (st2 := fold_left _ bs _) in *. set (e2 := node_values _ _ ++ e) in *.
  assert (K2 : same_keys st st2) by exact M3.
  destruct (register_ok to st2 e2 R (seq (s_next st) (length to)) qs bo (fst (run o qv bv pv)) (snd (run o qv bv pv)) I2) as (st' & A & B & C & D & I3); auto.
  - unfold e2, EncSpec.node_values, the_node. cbn [what nout vq vb vp]. apply deal_dealt; [apply seq_NoDup|apply plain_of_out; auto|apply seq_length].
  - apply seq_length.
  - apply seq_NoDup.
  - rewrite M2, M4. apply Forall_forall. intros w Hw. apply in_seq in Hw. split; [cbn; lia|]. cbn [fst add_node s_wires]. eapply fresh_key; [exact I|lia].
  - intros a Ha. rewrite K2. auto.
  - intros a Ha. rewrite K2. auto.
  - exists e2, st'. split; auto. split; [|split; auto].
    + eapply grows_same; [exact Gr| |]; congruence.
    + eapply same_keys_trans; eauto.
Qed.
Lemma opaque_register qs : forall (st : state) ws bs, length ws = length qs + length bs ->
  register_outputs st ws (repeat TQ (length qs) ++ repeat TB (length bs)) qs bs =
  Ok (fold_left (fun st x => track_wire st (fst x) TB [] [a_reg (snd x)]) (combine (skipn (length qs) ws) bs)
       (fold_left (fun st x => track_wire st (fst x) TQ [a_reg (snd x)] []) (combine ws qs) st)).
Proof.
  induction qs as [|q qs IH]; intros st ws bs L.
  - cbn [length repeat app skipn combine]. assert (combine ws (@nil arg) = []) as -> by (destruct ws; reflexivity). cbn [fold_left]. revert st ws L.
    induction bs as [|b bs IHb]; intros st [|w ws] L; try discriminate; [reflexivity|]. simpl in L. injection L as L.
    cbn [length repeat register_outputs combine fold_left fst snd]. change (count_or_default TB) with {| cq := 0; cb := 1; cp := 0 |}. cbn [cq cb firstn skipn length Nat.eqb andb map].
    rewrite IHb by auto. reflexivity.
  - destruct ws as [|w ws]; [discriminate|]. simpl in L. injection L as L. cbn [length repeat app register_outputs combine fold_left fst snd skipn].
    change (count_or_default TQ) with {| cq := 1; cb := 0; cp := 0 |}. cbn [cq cb firstn skipn length Nat.eqb andb map]. rewrite IH by auto. reflexivity.
Qed.

Variable lookup : POp -> nat -> nat -> nat -> option (dec Op).
Variable opaque : POp -> Op.
Notation process_command := (process_command lookup opaque read_op make_op).
Notation run_decoder := (run_decoder lookup opaque read_op make_op).
Notation understood := (understood run psem lookup opaque).

Lemma out_forall ts : (forall t, In t ts -> t = TQ \/ t = TB \/ t = TT) -> Forall out_ty ts.
Proof. intros H. apply Forall_forall. exact H. Qed.
Lemma tracked_same (st st' : state) k r : same_tracker st st' -> tracked st' k r = tracked st k r.
Proof. intros (_ & A & B). unfold tracked. now rewrite A, B. Qed.
Lemma good_keys st e R qs bs : Inv st e R -> good_args st qs bs -> (forall a, In a qs -> In (a_reg a) (map fst (s_latest st Qb))) /\ (forall a, In a bs -> In (a_reg a) (map fst (s_latest st Bt))).
Proof.
  intros I [A B]; split; intros a Ha; [apply A in Ha|apply B in Ha]; destruct (tracked_facts _ _ _ _ _ _ _ _ _ _ _ I Ha) as (_ & X & _); apply in_map_iff; eexists; split; [|exact X| |exact X]; reflexivity.
Qed.
Lemma Forall2_len {A B} (Q : A -> B -> Prop) l m : Forall2 Q l m -> length l = length m.
Proof. induction 1; simpl; auto. Qed.

Lemma process_ok st e R c st' : Inv st e R -> NoDup (p_args c) -> understood (p_op c) -> process_command st c = Ok st' ->
  exists e', grows st e st' e' /\ same_keys st st' /\ Inv st' e' (run_pcommand den psem (map fst (s_latest st Bt)) R c).
Proof.
  intros I Nd U Q. unfold DecModel.process_command in Q.
  destruct (args_to_elems st (p_args c)) as [[qs bs]|] eqn:A; [|discriminate]. cbn [bind] in Q.
  destruct (args_ok _ _ _ _ _ _ I A) as (Mq & Mb & G).
  destruct (load_params st (p_params c)) as [st1 ps] eqn:L.
  destruct (load_params_ok _ _ _ _ _ _ I L) as (e1 & Gr1 & I1 & Tk & Pk).
  assert (G1 : good_args st1 qs bs) by (destruct G; split; intros; rewrite (tracked_same st st1); auto).
  destruct (good_keys _ _ _ _ _ I1 G1) as [Kq Kb].
  assert (Ks1 : same_keys st st1) by (intros k; destruct Tk as (_ & _ & ->); reflexivity).
  assert (Nq : NoDup (map a_reg qs)) by (rewrite Mq; apply NoDup_filter; auto).
  assert (Nb : NoDup (map a_reg bs)) by (rewrite Mb; apply NoDup_filter; auto).
  assert (Lp : length ps = length (map den (p_params c))) by (eapply Forall2_len; eauto).
  specialize (U (length qs) (length bs) (length ps)).
  unfold run_pcommand. rewrite <- Mq, <- Mb.
  destruct (lookup (p_op c) (length qs) (length bs) (length ps)) as [d|] eqn:Lk.
  - destruct (Nat.ltb_spec (length bs) (d_take d)) as [|Ht]; [discriminate|]. destruct (Nat.ltb_spec (length bs) (d_drop d)) as [|Hd]; [discriminate|]. cbn [orb] in Q.
    unfold add_node_with_wires in Q.
    destruct (negb _) eqn:C1 in Q; [discriminate|]. destruct (negb _) eqn:C2 in Q; [discriminate|].
    destruct (find_typed_wires st1 (d_in d) qs (firstn (d_take d) bs) ps) as [[[st2 vs] us]|] eqn:F; [|discriminate]. cbn [bind] in Q.
    apply negb_false_iff in C1, C2. rewrite !andb_true_iff, !Nat.eqb_eq in C1, C2.
    destruct U as [Uo U]. apply out_forall in Uo. rewrite (csum_plain _ (plain_of_out _ Uo)) in C2. cbn [cq cb cp] in C2.
    assert (G1' : good_args st1 qs (firstn (d_take d) bs)).
    { destruct G1 as [X Y]. split; auto. intros a Ha. apply Y. rewrite <- (firstn_skipn (d_take d)). apply in_or_app; auto. }
    assert (Nb' : NoDup (map a_reg (firstn (d_take d) bs))).
    { rewrite <- (firstn_skipn (d_take d) bs), map_app in Nb. apply nodup_left in Nb. exact Nb. }
    destruct (find_typed_wires_ok _ _ _ _ _ _ _ _ _ _ _ I1 G1' Nq Nb' Pk F) as (e2 & Gr2 & I2 & Ks2 & Pl & _ & _ & _ & _ & Gv & Gu).
    rewrite (csum_plain _ Pl) in C1. cbn [cq cb cp] in C1. rewrite firstn_length, Nat.min_l in C1 by lia. rewrite skipn_length in C2.
    destruct C1 as [[C1a C1b] C1c]. destruct C2 as [[C2a C2b] C2c].
    rewrite C1a, firstn_all in Gv. rewrite C1b, firstn_all' in Gv by (rewrite firstn_length; lia). rewrite C1c, firstn_all' in Gu by lia.
    rewrite map_map_reg in Gv. rewrite (map_map_reg R Bt), <- firstn_map, <- firstn_map in Gv.
    destruct (U C1a C1b C1c C2a ltac:(lia) (map (R Qb) (map a_reg qs)) (map (R Bt) (map a_reg bs)) (map den (p_params c))) as (L1 & L2 & Sem); try (rewrite !map_length; reflexivity); [congruence|].
    destruct (add_node st2 (IEmit (d_op d)) (vs ++ us) (d_in d) (d_out d)) as [s0 w0] eqn:An.
    assert (s0 = fst (add_node st2 (IEmit (d_op d)) (vs ++ us) (d_in d) (d_out d)) /\ w0 = seq (s_next st2) (length (d_out d))) as [-> ->] by (rewrite An; unfold add_node in An; injection An as _ <-; auto).
    destruct (emit_ok st2 e2 R (d_op d) (d_in d) (d_out d) qs (firstn (d_take d) bs) (skipn (d_drop d) bs) vs us _ _ _ I2 Gv Gu Uo C2a ltac:(rewrite skipn_length; exact C2b) L1 ltac:(rewrite skipn_length; exact L2)) as (e3 & st3 & Rg & Gr3 & Ks3 & I3); auto.
    + intros a Ha. rewrite Ks2. auto.
    + intros a Ha. rewrite Ks2. apply Kb. rewrite <- (firstn_skipn (d_drop d) bs). apply in_or_app; auto.
    + rewrite Rg in Q. injection Q as <-. exists e3. split; [do 2 (eapply grows_trans; eauto)|]. split; [do 2 (eapply same_keys_trans; eauto)|].
      eapply inv_ext; [|exact I3]. intros k r. rewrite Sem. cbn [fst snd]. rewrite put_regs_same, <- skipn_map; auto. intros i. rewrite put_regs_other; auto. left. discriminate.
  - unfold build_opaque in Q. set (tv := repeat TQ (length qs) ++ repeat TB (length bs)) in *.
    destruct (find_typed_wires st1 (tv ++ repeat TP (length ps)) qs bs ps) as [[[st2 vs] us]|] eqn:F; [|discriminate]. cbn [bind] in Q.
    destruct (find_typed_wires_ok _ _ _ _ _ _ _ _ _ _ _ I1 G1 Nq Nb Pk F) as (e2 & Gr2 & I2 & Ks2 & Pl & _ & _ & _ & _ & Gv & Gu).
    assert (T1 : qubits_of (repeat TQ (length qs)) = length qs /\ bits_of (repeat TQ (length qs)) = 0 /\ params_of (repeat TQ (length qs)) = 0).
    { unfold qubits_of, bits_of, params_of. clear. induction qs; simpl; auto. destruct IHqs as (-> & -> & ->). auto. }
    assert (T2 : qubits_of (repeat TB (length bs)) = 0 /\ bits_of (repeat TB (length bs)) = length bs /\ params_of (repeat TB (length bs)) = 0).
    { unfold qubits_of, bits_of, params_of. clear. induction bs; simpl; auto. destruct IHbs as (-> & -> & ->). auto. }
    assert (T3 : qubits_of (repeat TP (length ps)) = 0 /\ bits_of (repeat TP (length ps)) = 0 /\ params_of (repeat TP (length ps)) = length ps).
    { unfold qubits_of, bits_of, params_of. clear. induction ps; simpl; auto. destruct IHps as (-> & -> & ->). auto. }
    assert (Tq : qubits_of tv = length qs) by (unfold tv, qubits_of in *; rewrite of_app; lia).
    assert (Tb : bits_of tv = length bs) by (unfold tv, bits_of in *; rewrite of_app; lia).
    assert (Tq' : qubits_of (tv ++ repeat TP (length ps)) = length qs) by (unfold qubits_of in *; rewrite of_app; lia).
    assert (Tb' : bits_of (tv ++ repeat TP (length ps)) = length bs) by (unfold bits_of in *; rewrite of_app; lia).
    assert (Tp' : params_of (tv ++ repeat TP (length ps)) = length ps) by (unfold tv, params_of in *; rewrite !of_app; lia).
    rewrite Tq', Tb', !firstn_all in Gv. rewrite Tp', firstn_all' in Gu by lia. rewrite !map_map_reg in Gv.
    assert (To : Forall out_ty tv).
    { unfold tv. apply Forall_app. split; apply Forall_forall; intros t Ht; apply repeat_spec in Ht; subst; unfold out_ty; auto. }
    destruct (U (map (R Qb) (map a_reg qs)) (map (R Bt) (map a_reg bs)) (map den (p_params c))) as (L1 & L2 & Sem); try (rewrite !map_length; reflexivity); [congruence|].
    destruct (add_node st2 (IEmit (opaque (p_op c))) (vs ++ us) (tv ++ repeat TP (length ps)) tv) as [s0 w0] eqn:An.
    assert (s0 = fst (add_node st2 (IEmit (opaque (p_op c))) (vs ++ us) (tv ++ repeat TP (length ps)) tv) /\ w0 = seq (s_next st2) (length tv)) as [-> ->] by (rewrite An; unfold add_node in An; injection An as _ <-; auto).
    destruct (emit_ok st2 e2 R (opaque (p_op c)) (tv ++ repeat TP (length ps)) tv qs [] bs vs us _ _ _ I2 Gv Gu To Tq Tb L1 L2) as (e3 & st3 & Rg & Gr3 & Ks3 & I3); auto.
    + intros a Ha. rewrite Ks2. auto.
    + intros a Ha. rewrite Ks2. auto.
    + subst tv. rewrite opaque_register in Rg by (rewrite seq_length, app_length, !repeat_length; reflexivity).
      cbn [fold_left] in Rg. match type of Rg with Ok ?x = _ => match type of Q with Ok ?y = _ => change y with x in Q end end. assert (st' = st3) as -> by congruence. exists e3. split; [do 2 (eapply grows_trans; eauto)|]. split; [do 2 (eapply same_keys_trans; eauto)|]. rewrite Sem. exact I3.
Qed.
Lemma run_ok cs : forall st e R st', Inv st e R -> (forall c, In c cs -> NoDup (p_args c) /\ understood (p_op c)) -> run_decoder st cs = Ok st' ->
  exists e', grows st e st' e' /\ same_keys st st' /\ Inv st' e' (fold_left (run_pcommand den psem (map fst (s_latest st Bt))) cs R).
Proof.
  induction cs as [|c cs IH]; intros st e R st' I H Q; cbn [DecModel.run_decoder] in Q.
  - injection Q as <-. exists e. split; [apply grows_refl|]. split; [intros ?; reflexivity|exact I].
  - destruct (process_command st c) as [st1|] eqn:Pc; [|discriminate]. cbn [bind] in Q. destruct (H c (or_introl eq_refl)) as [Nd U].
    destruct (process_ok _ _ _ _ _ I Nd U Pc) as (e1 & Gr1 & Ks1 & I1).
    destruct (IH _ _ _ _ I1 (fun c' Hc => H c' (or_intror Hc)) Q) as (e2 & Gr2 & Ks2 & I2). rewrite Ks1 in I2.
    exists e2. split; [eapply grows_trans; eauto|]. split; [eapply same_keys_trans; eauto|exact I2].
Qed.
End Step.
