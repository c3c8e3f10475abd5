(** Proofs about the pytket decoder: the start, the end, and whole circuits. *)
From Coq Require Import List Bool Arith Lia.
From Verif Require Import EncSpec DecSpec DecModel DecProofs DecStep.
Import ListNotations.

Lemma nodup_right {A} (l m : list A) : NoDup (l ++ m) -> NoDup m.
Proof. induction l as [|a l IH]; intros H; auto. inversion H; auto. Qed.
Lemma map_fst_combine {A B} (l : list A) (m : list B) : length l = length m -> map fst (combine l m) = l.
Proof. revert m; induction l; intros [|b m]; simpl; intros; try discriminate; auto. now rewrite IHl by auto. Qed.
Lemma map_snd_combine {A B} (l : list A) (m : list B) : length l = length m -> map snd (combine l m) = m.
Proof. revert m; induction l; intros [|b m]; simpl; intros; try discriminate; auto. now rewrite IHl by auto. Qed.
Lemma all_some_ok {A} (l : list (option A)) r : all_some l = Ok r -> l = map Some r.
Proof. revert r; induction l as [|[a|] l IH]; simpl; intros r Q; [injection Q as <-; auto| |discriminate]. destruct (all_some l); [|discriminate]. injection Q as <-. simpl. now rewrite (IH a0). Qed.

Section Full.
Variables Op POp E V P : Type.
Variables (zero one : V) (run : Op -> list V -> list V -> list P -> list V * list V) (prun : Op -> list P -> list P) (den : E -> P).
Variable psem : POp -> list V -> list V -> list P -> list V * list V.
Variables read_op make_op : Op.
Variable lookup : POp -> nat -> nat -> nat -> option (dec Op).
Variable opaque : POp -> Op.
Notation state := (state Op E).
Notation env := (env V P).
Notation val := (val V P).
Notation regs := (DecSpec.regs V).
Notation meaning := (meaning Op E V P zero one run prun den).
Notation Inv := (Inv Op E V P zero).
Notation grows := (grows Op E V P zero one run prun den).
Notation same_keys := (same_keys Op E).
Notation good_args := (good_args Op E).
Notation params_ok := (params_ok Op E V P).
Notation find_typed_wire := (find_typed_wire read_op make_op).
Notation find_outputs := (find_outputs read_op make_op).
Notation free_qubits := (free_qubits read_op make_op).
Notation decode := (decode lookup opaque read_op make_op).

(** ** The start *)
Lemma inv_start n e R : Inv (start n) e R.
Proof. constructor; cbn; try tauto; try constructor. Qed.
Lemma inv_track_empty st e R w t : Inv st e R -> w < s_next st -> ~ In w (map fst (s_wires st)) -> Inv (track_wire st w t [] []) e R.
Proof.
  intros I Lw Nw. pose proof I as [A B C D F G]. unfold track_wire. cbn [tracks]. constructor; cbn [s_latest s_elems s_wires s_next]; auto.
  - intros w' d' H. apply in_app_or in H. destruct H as [H|[H|[]]].
    + apply C in H. destruct H. split; auto.
    + injection H as <- <-. split; auto. right. intros []; reflexivity.
  - rewrite map_app. apply nodup_snoc; auto.
  - intros k id w1 d1 w2 d2 H1 H2 X1 X2. apply in_app_or in H1, H2.
    destruct H1 as [H1|[H1|[]]]; [|injection H1 as <- <-; destruct k; destruct X1].
    destruct H2 as [H2|[H2|[]]]; [|injection H2 as <- <-; destruct k; destruct X2]. eauto.
  - intros k r id x H1 H2 H3. destruct (G k r id x H1 H2 H3) as [(w' & d' & X & Y & Z)|[X Y]].
    + left. exists w', d'. split; auto. apply in_or_app; auto.
    + right. split; auto. intros w' d' H. apply in_app_or in H. destruct H as [H|[H|[]]]; [eauto|]. injection H as <- <-. destruct k; simpl; tauto.
Qed.
Definition vzero : val := {| vq := []; vb := []; vp := [] |}.

Lemma track_inputs_ok ts : forall st e R ws qs bs st' qs' bs' v, Inv st e R -> length ws = length ts -> NoDup ws ->
  Forall (fun w => w < s_next st /\ ~ In w (map fst (s_wires st))) ws -> Forall plain_ty ts -> gather e ws = Some v ->
  (forall w t x, In (w, t) (combine ws ts) -> look e w = Some x -> length (vq x) = qubits_of [t] /\ length (vb x) = bits_of [t] /\ length (vp x) = params_of [t]) ->
  vq v = map (R Qb) (firstn (qubits_of ts) qs) -> firstn (length bs) (vb v) = map (R Bt) (firstn (bits_of ts) bs) ->
  NoDup qs -> NoDup bs -> (forall r, In r qs -> ~ In r (map fst (s_latest st Qb))) -> (forall r, In r bs -> ~ In r (map fst (s_latest st Bt))) ->
  track_inputs st ws ts qs bs = Ok (st', qs', bs') ->
  Inv st' e R /\ qs' = skipn (qubits_of ts) qs /\ bs' = skipn (bits_of ts) bs /\ s_nodes st' = s_nodes st /\ s_next st' = s_next st /\
  map fst (s_latest st' Qb) = map fst (s_latest st Qb) ++ firstn (qubits_of ts) qs /\ map fst (s_latest st' Bt) = map fst (s_latest st Bt) ++ firstn (bits_of ts) bs.
Proof.
  induction ts as [|t ts IH]; intros st e R [|w ws] qs bs st' qs' bs' v I L N Fw Pl Ga Len Vq Vb Nq Nb Kq Kb Q; try discriminate; cbn [track_inputs] in Q.
  - injection Q as <- <- <-. cbn. rewrite !app_nil_r. split; [exact I|]. repeat split; reflexivity.
  - inversion Fw as [|? ? [Fw1 Fw2] Fw3]; subst. inversion N as [|? ? N1 N2]; subst. inversion Pl as [|? ? Pt Pts]; subst. injection L as L.
    destruct (of_cons t ts) as (O1 & O2 & O3). rewrite O1, O2 in *. cbn [gather] in Ga.
    destruct (look e w) as [a|] eqn:Lw; [|discriminate]. destruct (gather e ws) as [b|] eqn:Gb; [|discriminate]. injection Ga as <-. cbn [vapp vq vb] in Vq, Vb.
    destruct (Len w t a (or_introl eq_refl) Lw) as (La & Lb & Lc).
    assert (Len' : forall w0 t0 x, In (w0, t0) (combine ws ts) -> look e w0 = Some x -> length (vq x) = qubits_of [t0] /\ length (vb x) = bits_of [t0] /\ length (vp x) = params_of [t0]) by (intros; eapply Len; eauto; now right).
    (* A wire with one register *)
    assert (Step : forall k r qs1 bs1, fits t k -> look e w = Some (single V P k (R k r)) -> ~ In r (map fst (s_latest st k)) ->
      NoDup qs1 -> NoDup bs1 -> (forall x, In x qs1 -> ~ In x (map fst (s_latest st Qb)) /\ (k = Qb -> x <> r)) -> (forall x, In x bs1 -> ~ In x (map fst (s_latest st Bt)) /\ (k = Bt -> x <> r)) ->
      vq b = map (R Qb) (firstn (qubits_of ts) qs1) -> firstn (length bs1) (vb b) = map (R Bt) (firstn (bits_of ts) bs1) ->
      track_inputs (track_one Op E st k w t r) ws ts qs1 bs1 = Ok (st', qs', bs') ->
      Inv st' e R /\ qs' = skipn (qubits_of ts) qs1 /\ bs' = skipn (bits_of ts) bs1 /\ s_nodes st' = s_nodes st /\ s_next st' = s_next st /\
      map fst (s_latest st' Qb) = (map fst (s_latest st Qb) ++ match k with Qb => [r] | Bt => [] end) ++ firstn (qubits_of ts) qs1 /\
      map fst (s_latest st' Bt) = (map fst (s_latest st Bt) ++ match k with Qb => [] | Bt => [r] end) ++ firstn (bits_of ts) bs1).
    { intros k r qs1 bs1 Ft Lk Kr Nq1 Nb1 Kq1 Kb1 Vq1 Vb1 Q1.
      destruct (track_one_fields Op E st k w t r) as (F1 & F2 & (d & F3 & _) & _ & F5).
      assert (Kk : forall k', map fst (s_latest (track_one Op E st k w t r) k') = map fst (s_latest st k') ++ if kind_eqb k' k then [r] else []).
      { intros k'. rewrite F5. unfold upd. destruct (kind_eqb k' k) eqn:Kq'; [|now rewrite app_nil_r]. assert (k' = k) as -> by (destruct k', k; auto; discriminate).
        rewrite keys_insert. apply mem_not_in in Kr. now rewrite Kr. }
      destruct (IH (track_one Op E st k w t r) e R ws qs1 bs1 st' qs' bs' b) as (A & B & C & D & F & G1 & G2); auto.
      - eapply inv_ext; [|apply inv_track_one with (v := R k r); eauto]. intros; apply put_same.
      - rewrite F2, F3. rewrite Forall_forall in Fw3 |- *. intros x Hx. destruct (Fw3 x Hx). split; auto. rewrite map_app, in_app_iff. simpl. intros [X|[X|[]]]; auto. subst x. contradiction.
      - intros x Hx. rewrite Kk, in_app_iff. destruct (Kq1 x Hx) as [X Y]. intros [Z|Z]; [auto|]. destruct k; simpl in Z; [|tauto]. destruct Z as [Z|[]]. subst. apply Y; auto.
      - intros x Hx. rewrite Kk, in_app_iff. destruct (Kb1 x Hx) as [X Y]. intros [Z|Z]; [auto|]. destruct k; simpl in Z; [tauto|]. destruct Z as [Z|[]]. subst. apply Y; auto.
      - rewrite (Kk Qb) in G1. rewrite (Kk Bt) in G2. split; [exact A|]. split; [exact B|]. split; [exact C|]. split; [congruence|]. split; [congruence|]. destruct k; auto. }
    (* A wire without registers *)
    assert (Empty : forall bs1, vq b = map (R Qb) (firstn (qubits_of ts) qs) -> firstn (length bs1) (vb b) = map (R Bt) (firstn (bits_of ts) bs1) -> NoDup bs1 -> (forall r, In r bs1 -> ~ In r (map fst (s_latest st Bt))) ->
      track_inputs (track_wire st w t [] []) ws ts qs bs1 = Ok (st', qs', bs') ->
      Inv st' e R /\ qs' = skipn (qubits_of ts) qs /\ bs' = skipn (bits_of ts) bs1 /\ s_nodes st' = s_nodes st /\ s_next st' = s_next st /\
      map fst (s_latest st' Qb) = map fst (s_latest st Qb) ++ firstn (qubits_of ts) qs /\ map fst (s_latest st' Bt) = map fst (s_latest st Bt) ++ firstn (bits_of ts) bs1).
    { intros bs1 Vq1 Vb1 Nb1 Kb1 Q1. apply (IH (track_wire st w t [] []) e R ws qs bs1 st' qs' bs' b); auto.
      - apply inv_track_empty; auto.
      - unfold track_wire. cbn [tracks s_next s_wires]. rewrite Forall_forall in Fw3 |- *. intros x Hx. destruct (Fw3 x Hx). split; auto. rewrite map_app, in_app_iff. simpl. intros [X|[X|[]]]; auto. subst x. contradiction. }
    destruct a as [aq ab ap]. cbn [vq vb vp] in *.
    assert (Bit : t = TB \/ t = TT -> Inv st' e R /\ qs' = skipn (qubits_of [t] + qubits_of ts) qs /\ bs' = skipn (bits_of [t] + bits_of ts) bs /\ s_nodes st' = s_nodes st /\ s_next st' = s_next st /\
      map fst (s_latest st' Qb) = map fst (s_latest st Qb) ++ firstn (qubits_of [t] + qubits_of ts) qs /\ map fst (s_latest st' Bt) = map fst (s_latest st Bt) ++ firstn (bits_of [t] + bits_of ts) bs).
    { intros Tb. assert (count_or_default t = {| cq := 0; cb := 1; cp := 0 |} /\ qubits_of [t] = 0 /\ bits_of [t] = 1 /\ params_of [t] = 0) as (X1 & X2 & X3 & X4) by (destruct Tb as [-> | ->]; auto).
      rewrite X1 in Q. rewrite X2, X3, X4 in *. cbn [cq cb cp Nat.add Nat.eqb firstn length negb skipn] in Q.
      destruct aq; [|discriminate]. destruct ab as [|x [|]]; try discriminate. destruct ap; [|discriminate]. cbn [app Nat.add] in Vq, Vb |- *.
      destruct bs as [|r bs].
      - cbn [firstn skipn] in Q. rewrite skipn_nil, firstn_nil. apply (Empty []) in Q; auto; [|destruct (bits_of ts); reflexivity]. rewrite firstn_nil, skipn_nil in Q. exact Q.
      - cbn [firstn skipn map] in Q, Vb |- *. injection Vb as Vx Vb. inversion Nb as [|? ? Nr Nb1]; subst.
        destruct (Step Bt r qs bs) as (A & B & C & D & F & G1 & G2); auto.
        + apply Kb. now left.
        + intros x Hx. split; [apply Kq; auto|discriminate].
        + intros x Hx. split; [apply Kb; now right|]. intros _ ->. contradiction.
        + rewrite app_nil_r in G1. rewrite <- app_assoc in G2. split; [exact A|]. auto 10. }
    destruct Pt as [-> | [Pt | [Pt | ->]]]; [|apply Bit; auto|apply Bit; auto|].
    + change (count_or_default TQ) with {| cq := 1; cb := 0; cp := 0 |} in Q. cbn [cq cb cp Nat.add Nat.eqb] in Q.
      destruct qs as [|r qs]; [discriminate|]. cbn [firstn skipn length negb Nat.eqb] in Q.
      change (qubits_of [TQ]) with 1 in *. change (bits_of [TQ]) with 0 in *. change (params_of [TQ]) with 0 in *. destruct aq as [|x [|]]; try discriminate. destruct ab; [|discriminate]. destruct ap; [|discriminate].
      cbn in Vq, Vb. injection Vq as Vv Vq. inversion Nq as [|? ? Nr Nq1]; subst.
      destruct (Step Qb r qs bs) as (A & B & C & D & F & G1 & G2); auto.
      * reflexivity.
      * apply Kq. now left.
      * intros x Hx. split; [apply Kq; now right|]. intros _ ->. contradiction.
      * intros x Hx. split; [apply Kb; auto|discriminate].
      * rewrite <- app_assoc in G1. rewrite app_nil_r in G2. split; [exact A|]. cbn [Nat.add skipn firstn]. auto 10.
    + change (count_or_default TP) with {| cq := 0; cb := 0; cp := 1 |} in Q. cbn [cq cb cp Nat.add Nat.eqb firstn length negb skipn] in Q.
      change (qubits_of [TP]) with 0 in *. change (bits_of [TP]) with 0 in *. destruct aq; [|discriminate]. destruct ab; [|discriminate]. cbn [Nat.add app] in Vq, Vb |- *. apply Empty; auto.
Qed.

Lemma tracks_zero k rs : forall st e R, Inv st e R -> NoDup rs -> (forall r, In r rs -> ~ In r (map fst (s_latest st k)) /\ R k r = zero) ->
  let st' := fst (tracks st k rs) in
  Inv st' e R /\ s_nodes st' = s_nodes st /\ s_next st' = s_next st /\ map fst (s_latest st' k) = map fst (s_latest st k) ++ rs /\ s_latest st' (other k) = s_latest st (other k).
Proof.
  induction rs as [|r rs IH]; intros st e R I N H; cbn [tracks].
  - cbn. rewrite app_nil_r. split; [exact I|]. auto.
  - inversion N as [|? ? N1 N2]; subst. destruct (H r (or_introl eq_refl)) as [H1 H2].
    assert (I1 : Inv (fst (track st k r)) e R) by (apply inv_track_zero; auto).
    assert (Kk : map fst (s_latest (fst (track st k r)) k) = map fst (s_latest st k) ++ [r]).
    { unfold track. cbn [fst s_latest]. unfold upd. assert (kind_eqb k k = true) as -> by (destruct k; auto). rewrite keys_insert. apply mem_not_in in H1. now rewrite H1. }
    assert (Ko : s_latest (fst (track st k r)) (other k) = s_latest st (other k)) by (unfold track; cbn [fst s_latest]; unfold upd; destruct k; reflexivity).
    destruct (IH _ _ _ I1 N2) as (A & B & C & D & F).
    { intros x Hx. destruct (H x (or_intror Hx)). split; auto. rewrite Kk, in_app_iff. simpl. intros [X|[X|[]]]; auto. subst; auto. }
    destruct (track st k r) as [st1 i1] eqn:T. cbn [fst] in *. destruct (tracks st1 k rs) as [st2 l2]. cbn [fst] in *.
    assert (s_nodes st1 = s_nodes st /\ s_next st1 = s_next st) as [Z1 Z2] by (unfold track in T; injection T as <- _; auto).
    split; [exact A|]. rewrite D, Kk, <- app_assoc. split; [congruence|]. split; [congruence|]. split; [reflexivity|congruence].
Qed.
Lemma init_ok ti qubits bits st e R v : Forall plain_ty ti -> NoDup qubits -> NoDup bits -> gather e (seq 0 (length ti)) = Some v ->
  (forall w t x, In (w, t) (combine (seq 0 (length ti)) ti) -> look e w = Some x -> length (vq x) = qubits_of [t] /\ length (vb x) = bits_of [t] /\ length (vp x) = params_of [t]) ->
  vq v = map (R Qb) (firstn (qubits_of ti) qubits) -> firstn (length bits) (vb v) = map (R Bt) (firstn (bits_of ti) bits) ->
  (forall i, In i (skipn (qubits_of ti) qubits) -> R Qb i = zero) -> (forall i, In i (skipn (bits_of ti) bits) -> R Bt i = zero) ->
  init ti qubits bits = Ok st ->
  Inv st e R /\ s_nodes st = [] /\ s_next st = length ti /\ map fst (s_latest st Qb) = qubits /\ map fst (s_latest st Bt) = bits.
Proof.
  intros Pl Nq Nb Ga Len Vq Vb Zq Zb Q. unfold init in Q. destruct (track_inputs _ _ _ _ _) as [[[st1 qs1] bs1]|] eqn:T; [|discriminate]. cbn [bind] in Q.
  apply (track_inputs_ok ti (start (length ti)) e R (seq 0 (length ti)) qubits bits st1 qs1 bs1 v) in T; auto using inv_start, seq_length, seq_NoDup.
  2: { apply Forall_forall. intros w Hw. apply in_seq in Hw. cbn. split; [lia|tauto]. }
  destruct T as (I1 & -> & -> & Z1 & Z2 & Kq & Kb). cbn in Kq, Kb, Z1, Z2.
  assert (Nq' := Nq). rewrite <- (firstn_skipn (qubits_of ti) qubits) in Nq'. assert (Nb' := Nb). rewrite <- (firstn_skipn (bits_of ti) bits) in Nb'.
  assert (Dis : forall l m : list nat, NoDup (l ++ m) -> forall x, In x m -> ~ In x l).
  { clear. induction l as [|a l IH]; intros m H x X; [intros []|]. intros Y; simpl in *; inversion H; subst. destruct Y as [Y|Y]; [subst; apply H2, in_or_app; auto|eapply IH; eauto]. }
  destruct (tracks_zero Qb (skipn (qubits_of ti) qubits) st1 e R I1 (nodup_right _ _ Nq')) as (I2 & Y1 & Y2 & Y3 & Y4).
  { intros r Hr. split; auto. rewrite Kq. apply (Dis _ _ Nq'). auto. }
  cbn [other] in Y4.
  destruct (tracks_zero Bt (skipn (bits_of ti) bits) _ e R I2 (nodup_right _ _ Nb')) as (I3 & X1 & X2 & X3 & X4).
  { intros r Hr. split; auto. rewrite Y4, Kb. apply (Dis _ _ Nb'). auto. }
  cbn [other] in X4. injection Q as <-. split; [exact I3|]. rewrite X3, X4, Y3, Y4, Kq, Kb, !firstn_skipn. split; [congruence|]. split; [congruence|]. auto.
Qed.

(** ** The end *)
Lemma find_outputs_ok ts : forall st e R qs bs ps pv st' ws qs', Inv st e R -> good_args st qs bs -> NoDup (map a_reg qs) -> NoDup (map a_reg bs) -> params_ok st e ps pv ->
  find_outputs st ts qs bs ps = Ok (st', ws, qs') ->
  exists e', grows st e st' e' /\ Inv st' e' R /\ Forall (fun w => w < s_next st') ws /\ length ws = length ts /\ good_args st' qs' [] /\ NoDup (map a_reg qs') /\ qs' = skipn (qubits_of ts) qs /\
    gather e' ws = Some {| vq := map (fun a => R Qb (a_reg a)) (firstn (qubits_of ts) qs); vb := map (fun a => R Bt (a_reg a)) (firstn (bits_of ts) bs); vp := firstn (params_of ts) pv |}.
Proof.
  induction ts as [|t ts IH]; intros st e R qs bs ps pv st' ws qs' I G Nq Nb Pk Q; cbn [DecModel.find_outputs] in Q.
  - injection Q as <- <- <-. exists e. split; [apply grows_refl|]. split; auto. split; [constructor|]. split; [reflexivity|]. split; [destruct G; split; auto; intros ? []|]. auto.
  - destruct (find_typed_wire st t qs bs ps) as [[[[[st1 w] qs1] bs1] ps1]|] eqn:F1; [|discriminate]. cbn [bind] in Q.
    destruct (find_outputs st1 ts qs1 bs1 ps1) as [[[st2 vs2] qs2]|] eqn:F2; [|discriminate]. cbn [bind] in Q. injection Q as <- <- <-.
    destruct (find_typed_wire_ok _ _ _ _ zero one run prun den read_op make_op _ _ _ _ _ _ _ _ _ _ _ _ I G F1) as (e1 & Gr & I1 & K1 & Fw).
    assert (Pk' : params_ok st1 e1 ps pv) by (eapply params_grow; eauto).
    destruct G as [Gq Gb]. destruct (of_cons t ts) as (O1 & O2 & O3). rewrite O1, O2, O3.
    assert (Bit : t = TB \/ t = TT -> (exists a, bs = a :: bs1 /\ qs1 = qs /\ ps1 = ps /\ a_old a = false /\ look e1 w = Some (single V P Bt (R Bt (a_reg a))) /\ frame Op E st st1 Bt (a_reg a) /\ w < s_next st1) ->
      exists e' : env, grows st e st2 e' /\ Inv st2 e' R /\ Forall (fun w => w < s_next st2) (w :: vs2) /\ length (w :: vs2) = length (t :: ts) /\ good_args st2 qs2 [] /\ NoDup (map a_reg qs2) /\ qs2 = skipn (qubits_of [t] + qubits_of ts) qs /\
        gather e' (w :: vs2) = Some {| vq := map (fun a => R Qb (a_reg a)) (firstn (qubits_of [t] + qubits_of ts) qs); vb := map (fun a => R Bt (a_reg a)) (firstn (bits_of [t] + bits_of ts) bs); vp := firstn (params_of [t] + params_of ts) pv |}).
    { intros Tt (a & -> & -> & -> & Oa & Lw & Fr & Lt). inversion Nb as [|? ? N1 N2]; subst.
      assert (G1 : good_args st1 qs bs1).
      { split; intros x Hx; rewrite Fr; [apply Gq; auto|discriminate|apply Gb; now right|]. intros [= X]. apply N1. rewrite <- X. apply in_map; auto. }
      destruct (IH _ _ R _ _ _ _ _ _ _ I1 G1 Nq N2 Pk' F2) as (e2 & Gr2 & I2 & Lts & Ll & G2 & Nq2 & Sk & Ga).
      pose proof Gr2 as (_ & Ln & Lk).
      exists e2. split; [eapply grows_trans; eauto|]. split; auto. split; [constructor; auto; lia|]. split; [simpl; auto|]. split; auto. split; auto.
      assert (qubits_of [t] = 0 /\ bits_of [t] = 1 /\ params_of [t] = 0) as (-> & -> & ->) by (destruct Tt as [-> | ->]; auto). split; auto.
      cbn [gather]. rewrite (Lk w Lt), Lw, Ga. unfold vapp; cbn. reflexivity. }
    destruct t; cbn [found_wire] in Fw; try contradiction.
    + destruct Fw as (a & -> & -> & -> & Oa & Lw & Fr & Lt). inversion Nq as [|? ? N1 N2]; subst.
      assert (G1 : good_args st1 qs1 bs).
      { split; intros x Hx; rewrite Fr; [apply Gq; now right| |apply Gb; auto|discriminate]. intros [= X]. apply N1. rewrite <- X. apply in_map; auto. }
      destruct (IH _ _ R _ _ _ _ _ _ _ I1 G1 N2 Nb Pk' F2) as (e2 & Gr2 & I2 & Lts & Ll & G2 & Nq2 & Sk & Ga).
      pose proof Gr2 as (_ & Ln & Lk).
      exists e2. split; [eapply grows_trans; eauto|]. split; auto. split; [constructor; auto; lia|]. split; [simpl; auto|]. split; auto. split; auto. split; auto.
      cbn [gather]. rewrite (Lk w Lt), Lw, Ga. unfold vapp; cbn. reflexivity.
    + apply Bit; auto.
    + apply Bit; auto.
    + destruct Fw as (-> & -> & -> & -> & ->). inversion Pk as [|? p ? pv' [Lw Lt] Pk2]; subst.
      destruct (IH _ _ R _ _ _ _ _ _ _ I (conj Gq Gb) Nq Nb Pk2 F2) as (e2 & Gr2 & I2 & Lts & Ll & G2 & Nq2 & Sk & Ga).
      pose proof Gr2 as (_ & Ln & Lk).
      exists e2. split; auto. split; auto. split; [constructor; auto; lia|]. split; [simpl; auto|]. split; auto. split; auto. split; auto.
      cbn [gather]. rewrite (Lk w Lt), Lw, Ga. unfold vapp; cbn. reflexivity.
Qed.
Lemma free_qubits_ok qs : forall st e R, Inv st e R -> good_args st qs [] -> NoDup (map a_reg qs) -> exists e', grows st e (free_qubits st qs) e'.
Proof.
  induction qs as [|q qs IH]; intros st e R I G N; cbn [DecModel.free_qubits].
  - exists e. apply grows_refl.
  - inversion N as [|? ? N1 N2]; subst. destruct G as [Gq _].
    assert (Skip : exists e', grows st e (free_qubits st qs) e') by (apply (IH st e R); auto; split; [intros; apply Gq; now right|intros ? []]).
    destruct (wires_with st Qb (a_id q)); auto.
    destruct (find_typed_wire st TQ [q] [] []) as [[[[[st1 w1] qs1] bs1] ps1]|] eqn:F; auto.
    assert (G1 : good_args st [q] []) by (split; [intros a [<-|[]]; apply Gq; now left|intros ? []]).
    destruct (find_typed_wire_ok _ _ _ _ zero one run prun den read_op make_op _ _ _ _ _ _ _ _ _ _ _ _ I G1 F) as (e1 & Gr & I1 & K1 & Fw).
    cbn [found_wire] in Fw. destruct Fw as (a & Qa & _ & _ & _ & Lw & Fr & Lt). injection Qa as <- _.
    assert (Ga : gather e1 [w1] = Some (vapp V P (single V P Qb (R Qb (a_reg q))) vzero)) by (cbn [gather]; rewrite Lw; reflexivity).
    pose proof (add_node_grows _ _ _ _ zero one run prun den st1 e1 IFree [w1] [TQ] [] _ Ga) as Gr2.
    pose proof (inv_add_node _ _ _ _ zero one run prun den st1 e1 R IFree [w1] [TQ] [] _ I1 Ga) as I2.
    destruct (IH (fst (add_node st1 IFree [w1] [TQ] [])) _ R I2) as (e3 & Gr3); auto.
    { split; [|intros ? []]. intros a Ha. change (tracked (fst (add_node st1 IFree [w1] [TQ] [])) Qb (a_reg a)) with (tracked st1 Qb (a_reg a)). rewrite Fr; [apply Gq; now right|].
      intros [= X]. apply N1. rewrite <- X. apply in_map; auto. }
    exists e3. eapply grows_trans; [|exact Gr3]. eapply grows_trans; eauto.
Qed.

Theorem decode_ok p ti to perm ops oq c : Forall plain_ty ti -> sane p -> (forall x, In x (p_commands p) -> understood run psem lookup opaque (p_op x)) ->
  map Some oq = map (fun i => nth_error (p_qubits p) (nth i perm i)) (seq 0 (length (p_qubits p))) -> NoDup oq ->
  decode p ti to perm ops = Ok c ->
  map snd (t_inputs c) = ti /\ map snd (t_outputs c) = to /\ same_meaning zero one run prun den psem p oq ops c.
Proof.
  intros Pl (Nq & Nb & Sane) U Ho No Q. unfold DecModel.decode in Q.
  destruct (init ti (p_qubits p) (p_bits p)) as [st0|] eqn:Q0; [|discriminate]. cbn [bind] in Q.
  destruct (run_decoder lookup opaque read_op make_op st0 (p_commands p)) as [st1|] eqn:Q1; [|discriminate]. cbn [bind] in Q.
  destruct (known_qubits st1 perm) as [qs|] eqn:Q2; [|discriminate]. cbn [bind] in Q.
  destruct (known_bits st1) as [bs|] eqn:Q3; [|discriminate]. cbn [bind] in Q.
  destruct (load_params st1 ops) as [st2 ps] eqn:Q4.
  destruct (find_outputs st2 to qs bs ps) as [[[st3 ws] qs']|] eqn:Q5; [|discriminate]. cbn [bind] in Q. injection Q as <-.
  assert (Li : length (seq 0 (length ti)) = length (map count_or_default ti)) by (rewrite seq_length, map_length; auto).
  assert (Lc : length (combine (seq 0 (length ti)) (map count_or_default ti)) = length ti) by (rewrite combine_length, seq_length, map_length; lia).
  split; [cbn [t_inputs]; apply map_snd_combine; auto|].
  assert (Lw : length ws = length to).
  { clear - Q5. revert st2 qs bs ps st3 ws qs' Q5. induction to as [|t ts IH]; intros st2 qs bs ps st3 ws qs' Q; cbn [DecModel.find_outputs] in Q; [injection Q as _ <- _; auto|].
    destruct (find_typed_wire st2 t qs bs ps) as [[[[[a1 a2] a3] a4] a5]|]; [|discriminate]. cbn [bind] in Q.
    destruct (find_outputs a1 ts a3 a4 a5) as [[[b1 b2] b3]|] eqn:F; [|discriminate]. injection Q as _ <- _. simpl. erewrite IH; eauto. }
  split; [cbn [t_outputs]; apply map_snd_combine; auto|].
  unfold same_meaning. cbn [t_inputs t_outputs t_nodes]. rewrite (map_snd_combine _ ti), (map_snd_combine ws to) by auto. intros e0 r0 v0 Ga Len Vq Vb Zq Zb.
  rewrite <- (map_map fst fst), (map_fst_combine _ ti), (map_fst_combine (seq 0 (length ti))) in Ga by auto.
  assert (Len' : forall w t x, In (w, t) (combine (seq 0 (length ti)) ti) -> look e0 w = Some x -> length (vq x) = qubits_of [t] /\ length (vb x) = bits_of [t] /\ length (vp x) = params_of [t]).
  { intros w t x Hi Hl. assert (Hi' : In (w, count_or_default t, t) (combine (combine (seq 0 (length ti)) (map count_or_default ti)) ti)).
    { clear - Hi. revert Hi. generalize (seq 0 (length ti)). induction ti as [|y ti IH]; intros [|z l]; simpl; auto. intros [H|H]; [left; injection H as <- <-; auto|right; auto]. }
    pose proof (Len _ x Hi' Hl) as X. cbn [fst snd] in X. rewrite plain_count in X; [exact X|]. apply in_combine_r in Hi. rewrite Forall_forall in Pl; auto. }
  destruct (init_ok ti _ _ st0 e0 r0 v0 Pl Nq Nb Ga Len' Vq Vb Zq Zb Q0) as (I0 & Z0 & _ & Kq & Kb).
  destruct (run_ok Op POp E V P zero one run prun den psem read_op make_op lookup opaque (p_commands p) st0 e0 r0 st1 I0) as (e1 & Gr1 & Ks1 & I1); auto.
  { intros c Hc. split; [apply Sane; auto|apply U; auto]. }
  rewrite Kb in I1. fold (run_pcircuit den psem p r0) in I1. set (R := run_pcircuit den psem p r0) in *.
  apply all_some_ok in Q2, Q3.
  assert (Tq : forall a, In a qs -> tracked st1 Qb (a_reg a) = Some a).
  { intros a Ha. assert (Hs : In (Some a) (map Some qs)) by (apply in_map; auto). rewrite <- Q2 in Hs. apply in_map_iff in Hs. destruct Hs as (i & Hi & _).
    destruct (nth_error _ _) as [[r id]|]; [|discriminate]. cbn [fst] in Hi. destruct (tracked_facts _ _ _ _ _ _ _ _ _ _ _ I1 Hi) as (-> & _). auto. }
  assert (Tb : forall a, In a bs -> tracked st1 Bt (a_reg a) = Some a).
  { intros a Ha. assert (Hs : In (Some a) (map Some bs)) by (apply in_map; auto). rewrite <- Q3 in Hs. apply in_map_iff in Hs. destruct Hs as ([r id] & Hi & _).
    cbn [fst] in Hi. destruct (tracked_facts _ _ _ _ _ _ _ _ _ _ _ I1 Hi) as (-> & _). auto. }
  assert (Mq : map a_reg qs = oq).
  { assert (X : map Some (map a_reg qs) = map Some oq).
    - rewrite Ho, map_map. rewrite <- (map_map Some (option_map a_reg)), <- Q2, map_map.
      rewrite <- (map_length fst (s_latest st1 Qb)), Ks1, Kq. apply map_ext_in. intros i Hi.
      rewrite <- Kq, <- Ks1, nth_error_map. destruct (nth_error (s_latest st1 Qb) (nth i perm i)) as [[r id]|] eqn:Ne; [|reflexivity]. cbn [option_map fst].
      assert (Hin : In (r, id) (s_latest st1 Qb)) by (eapply nth_error_In; eauto).
      destruct (i_elem _ _ _ _ _ _ _ _ I1 Qb r id Hin) as (x & Hx & Rx). unfold tracked. apply get_in in Hin; [|apply (i_nodup _ _ _ _ _ _ _ _ I1)]. rewrite Hin, Hx. cbn. congruence.
    - clear - X. revert oq X. induction (map a_reg qs) as [|a l IH]; intros [|b m]; simpl; intros H; try discriminate; auto. injection H as -> H. f_equal; auto. }
  assert (Mb : map a_reg bs = p_bits p).
  { assert (X : map Some (map a_reg bs) = map Some (p_bits p)).
    - rewrite map_map. rewrite <- (map_map Some (option_map a_reg)), <- Q3, map_map. rewrite <- Kb, <- Ks1, map_map. apply map_ext_in. intros [r id] Hin. cbn [fst].
      destruct (i_elem _ _ _ _ _ _ _ _ I1 Bt r id Hin) as (x & Hx & Rx). unfold tracked. apply get_in in Hin; [|apply (i_nodup _ _ _ _ _ _ _ _ I1)]. rewrite Hin, Hx. cbn. congruence.
    - clear - X. revert X. generalize (p_bits p). induction (map a_reg bs) as [|a l IH]; intros [|b m]; simpl; intros H; try discriminate; auto. injection H as -> H. f_equal; auto. }
  destruct (load_params_ok Op E V P zero one run prun den _ _ _ _ _ _ I1 Q4) as (e2 & Gr2 & I2 & Tk & Pk).
  assert (G2 : good_args st2 qs bs) by (split; intros a Ha; rewrite (tracked_same Op E st1 st2); auto).
  destruct (find_outputs_ok to st2 e2 R qs bs ps (map den ops) st3 ws qs' I2 G2) as (e3 & Gr3 & I3 & Lts & _ & G3 & N3 & _ & Go); auto; try congruence.
  destruct (free_qubits_ok qs' st3 e3 R I3 G3 N3) as (e4 & Gr4).
  exists e4. eexists.
  assert (Gr : grows st0 e0 (free_qubits st3 qs') e4) by (eapply grows_trans; [|exact Gr4]; eapply grows_trans; [|exact Gr3]; eapply grows_trans; eauto).
  destruct Gr as ((ns & Hn & Mn) & _). rewrite Z0 in Hn. cbn [app] in Hn.
  split; [unfold untyped; cbn [nodes t_nodes]; rewrite Hn; exact Mn|].
  split.
  { unfold untyped. cbn [outputs t_outputs]. rewrite map_fst_combine by auto. rewrite (gather_ext V P e3 e4); [exact Go|]. intros w Hw. destruct Gr4 as (_ & _ & Lk). apply Lk. rewrite Forall_forall in Lts; auto. }
  cbn [vq vb vp]. rewrite (map_map_reg V R Qb), (map_map_reg V R Bt), <- !firstn_map, !Mq, !Mb. auto.
Qed.
End Full.
