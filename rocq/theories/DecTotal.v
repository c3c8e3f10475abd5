(** Proofs about the pytket decoder: circuits without classical expressions can be decoded. *)
From Coq Require Import List Bool Arith Lia.
From Verif Require Import EncSpec DecSpec DecModel DecProofs DecStep DecFull DecLinear.
Import ListNotations.

Section Total.
Variables Op E : Type.
Variable inp : list (wire * count).
Variables read_op make_op : Op.
Notation state := (state Op E).
Notation Lin := (Lin Op E inp).
Notation good_args := (good_args Op E).
Notation same_keys := (same_keys Op E).
Notation track_one := (track_one Op E).
Notation params_lin := (params_lin Op E inp).
(** The latest values of all registers can be used. *)
Definition Fresh (st : state) : Prop := forall k, NoDup (map fst (s_latest st k)) /\ forall r id, In (r, id) (s_latest st k) -> nth_error (s_elems st k) id = Some {| e_reg := r; e_old := false |}.
Lemma fresh_same (st st' : state) : Fresh st -> s_elems st' = s_elems st -> s_latest st' = s_latest st -> Fresh st'.
Proof. intros F A B k. rewrite A, B. apply F. Qed.
Lemma fresh_track k r (st : state) : Fresh st -> Fresh (fst (track st k r)).
Proof.
  intros F k'. unfold track. cbn [fst s_latest s_elems]. destruct (kind_cases k k') as [->| ->]; [rewrite !upd_same|rewrite !upd_other; apply F].
  destruct (F k) as [N H]. split; [apply nodup_insert; auto|]. intros r' id' Hi. apply in_insert in Hi; auto.
  change (nth_error (elems' Op E st k r) id' = Some {| e_reg := r'; e_old := false |}). unfold elems'. destruct Hi as [[-> ->]|[Ne Hi]].
  - destruct (get r (s_latest st k)) as [i|] eqn:G; [rewrite nth_mark|]; rewrite ?nth_error_app2, ?Nat.sub_diag by lia; auto. apply get_in in G; auto. apply H in G.
    assert (i < length (s_elems st k)) by (apply nth_error_Some; congruence). destruct (Nat.eqb_spec (length (s_elems st k)) i); [lia|reflexivity].
  - pose proof (H _ _ Hi) as X. assert (L : id' < length (s_elems st k)) by (apply nth_error_Some; congruence).
    destruct (get r (s_latest st k)) as [i|] eqn:G; [rewrite nth_mark|]; rewrite ?nth_error_app1 by auto; auto. apply get_in in G; auto. apply H in G. destruct (Nat.eqb_spec id' i); auto. subst. congruence.
Qed.
Lemma fresh_tracks k rs : forall st : state, Fresh st -> Fresh (fst (tracks st k rs)).
Proof.
  induction rs as [|r rs IH]; intros st F; cbn [tracks]; auto. pose proof (IH _ (fresh_track k r st F)) as X. destruct (track st k r) as [st1 i]. cbn [fst] in X. destruct (tracks st1 k rs) as [st2 l]. exact X.
Qed.
Lemma fresh_wire (st : state) w t qs bs : Fresh st -> Fresh (track_wire st w t qs bs).
Proof.
  intros F. unfold track_wire. pose proof (fresh_tracks Qb qs st F) as A. destruct (tracks st Qb qs) as [st1 qi]. pose proof (fresh_tracks Bt bs st1 A) as B. destruct (tracks st1 Bt bs) as [st2 bi].
  eapply fresh_same; [exact B| |]; reflexivity.
Qed.
Lemma fresh_mark k id (st : state) : Fresh st -> (forall r i, In (r, i) (s_latest st k) -> i <> id) -> Fresh (mark_outdated st k id).
Proof.
  intros F H k'. unfold mark_outdated, with_elems. cbn [s_latest s_elems]. destruct (F k') as [A B]. split; auto. intros r i Hi. destruct (kind_cases k k') as [->| ->]; [rewrite !upd_same|rewrite !upd_other; auto].
  rewrite nth_mark. destruct (Nat.eqb_spec i id); auto. subst. exfalso. eapply H; eauto.
Qed.
Lemma fresh_tracked st k r : Fresh st -> In r (map fst (s_latest st k)) -> exists a, tracked st k r = Some a /\ a_reg a = r /\ a_old a = false.
Proof.
  intros F Hr. destruct (F k) as [A B]. apply in_map_iff in Hr. destruct Hr as ([r' id] & <- & Hr). unfold tracked. cbn [fst]. pose proof (proj2 (get_in _ _ _ A) Hr) as G. rewrite G, (B _ _ Hr). eexists. split; [reflexivity|auto].
Qed.
Lemma fresh_old st k a : Fresh st -> tracked st k (a_reg a) = Some a -> a_old a = false.
Proof.
  intros F T. unfold tracked in T. destruct (get (a_reg a) (s_latest st k)) as [id|] eqn:G; [|discriminate]. destruct (F k) as [A B]. apply get_in in G; auto. rewrite (B _ _ G) in T. injection T as <-. reflexivity.
Qed.
Lemma fresh_load es : forall st st' ws, Fresh st -> load_params st es = (st', ws) -> Fresh st' /\ length ws = length es.
Proof.
  induction es as [|x es IH]; intros st st' ws F Q; cbn [load_params] in Q; [injection Q as <- <-; auto|].
  destruct (add_node st (IParam x) [] [] [TP]) as [s0 w0] eqn:An. unfold add_node in An. injection An as <- <-. destruct (load_params _ es) as [s1 w1] eqn:L. injection Q as <- <-. match type of L with load_params ?s _ = _ => assert (F' : Fresh s) by (eapply fresh_same; [exact F| |]; reflexivity) end. destruct (IH _ _ _ F' L) as [X Y]. split; auto. simpl. auto.
Qed.
Notation find_typed_wire := (find_typed_wire read_op make_op).
Notation find_typed_wires := (find_typed_wires read_op make_op).
Lemma fresh_select st k t a qs bs : Fresh st -> Fresh (fst (select Op E st k t a qs bs)).
Proof.
  intros F. unfold select. destruct (find _ _); auto. destruct k; apply fresh_wire; eapply fresh_same; try exact F; reflexivity.
Qed.
Lemma find_total st A N t qs bs ps : Lin st A N -> Fresh st -> good_args st qs bs -> (forall a, In a qs -> ~ A (a_reg a)) -> plain_ty t ->
  qubits_of [t] <= length qs -> bits_of [t] <= length bs -> params_of [t] <= length ps ->
  exists st' w, find_typed_wire st t qs bs ps = Ok (st', w, skipn (qubits_of [t]) qs, skipn (bits_of [t]) bs, skipn (params_of [t]) ps) /\ Fresh st'.
Proof.
  intros L F [Gq Gb] Na Pt Hq Hb Hp. destruct (n_str _ _ _ _ _ _ L) as [e I].
  assert (Bit : fits t Bt -> qubits_of [t] = 0 -> bits_of [t] = 1 -> params_of [t] = 0 -> exists st' w, find_typed_wire st t qs bs ps = Ok (st', w, skipn (qubits_of [t]) qs, skipn (bits_of [t]) bs, skipn (params_of [t]) ps) /\ Fresh st').
  { intros Ft -> H1 ->. rewrite H1 in *. destruct bs as [|a bs]; [simpl in Hb; lia|]. cbn [skipn]. pose proof (Gb a (or_introl eq_refl)) as Ta.
    rewrite find_bit by auto. rewrite (fresh_old st Bt a F Ta).
    destruct (select_lin Op E inp read_op st A N Bt t a qs (a :: bs) L Ft (or_introl eq_refl) Ta ltac:(discriminate)) as (L1 & M1 & Nq & d & W & Wq & Fd).
    pose proof (fresh_select st Bt t a qs (a :: bs) F) as F1. cbv zeta in *.
    assert (Id : exists id, In id (w_ids d Bt) /\ In (a_reg a, id) (s_latest (fst (select Op E st Bt t a qs (a :: bs))) Bt)).
    { destruct (n_str _ _ _ _ _ _ L1) as [e1 I1].
      destruct (select_cases _ _ _ _ _ (run0 Op) (prun0 Op) read_op st e R0 Bt t a qs (a :: bs) I Ft (or_introl eq_refl)) as [[S1 (d' & W' & X)]|[S1 S2]]; cbv zeta in *.
      - rewrite S1 in *. assert (d' = d) as -> by (pose proof (data_of_in _ _ _ _ _ (i_keys _ _ _ _ _ _ _ _ I) W); pose proof (data_of_in _ _ _ _ _ (i_keys _ _ _ _ _ _ _ _ I) W'); congruence).
        exists (a_id a). split; auto. apply (tracked_facts _ _ _ _ _ _ _ _ _ _ _ I Ta).
      - pose proof (f_equal fst S2) as S3. pose proof (f_equal snd S2) as S4. cbn [fst snd] in S3, S4. rewrite <- S3, <- S4 in *. clear S2 S3 S4.
        change (fst (initialize Op E st Bt (a_reg a))) with (track_one (fst (add_node st (IConst false) [] [] [TB])) Bt (s_next st) TB (a_reg a)) in *. change (snd (initialize Op E st Bt (a_reg a))) with (s_next st) in *.
        destruct (track_one_fields Op E (fst (add_node st (IConst false) [] [] [TB])) Bt (s_next st) TB (a_reg a)) as (T1 & T2 & (dd & T3 & _ & T3a & T3b) & T4 & T5).
        assert (dd = d) as ->.
        { assert (W' : In (s_next st, dd) (s_wires (track_one (fst (add_node st (IConst false) [] [] [TB])) Bt (s_next st) TB (a_reg a)))) by (rewrite T3; apply in_or_app; right; now left).
          pose proof (data_of_in _ _ _ _ _ (i_keys _ _ _ _ _ _ _ _ I1) W); pose proof (data_of_in _ _ _ _ _ (i_keys _ _ _ _ _ _ _ _ I1) W'); congruence. }
        exists (length (s_elems st Bt)). rewrite T3a. split; [now left|]. rewrite T5, upd_same. apply in_insert; [apply (F Bt)|]. left. auto. }
    set (st1 := fst (select Op E st Bt t a qs (a :: bs))) in *. set (w1 := snd (select Op E st Bt t a qs (a :: bs))) in *. destruct Id as (id & Id1 & Id2).
    destruct (n_str _ _ _ _ _ _ L1) as [e1 I1]. destruct (wire_shape _ _ _ _ _ _ _ _ _ _ _ _ I1 W Id1) as (Z1 & Z2 & Z3).
    unfold convert. rewrite (data_of_in _ _ _ _ _ (i_keys _ _ _ _ _ _ _ _ I1) W). destruct (ty_eqb (w_ty d) t) eqn:Et; [cbn [bind]; eauto|].
    assert (Ok1 : exists o, match w_ty d, t with TB, TT => Ok make_op | TT, TB => Ok read_op | _, _ => Err CannotTranslateWire end = Ok o).
    { cbn [fits] in Ft, Fd. destruct Ft as [-> | ->], Fd as [Fd | Fd]; rewrite Fd in *; try discriminate; eauto. }
    destruct Ok1 as (o & ->). cbn [bind]. do 2 eexists. split; [reflexivity|].
    unfold mark_wire_outdated. cbn [other] in Wq. rewrite Wq, Z1. cbn [fold_left]. set (st2 := track_one _ Bt _ _ _).
    assert (F2 : Fresh st2) by (apply fresh_wire; eapply fresh_same; [exact F1| |]; reflexivity).
    apply fresh_mark; auto. intros r' i Hi X. subst i.
    destruct (track_one_fields Op E (fst (add_node st1 (ITransparent o) [w1] [w_ty d] [t])) Bt (s_next st1) (w_ty d) (a_reg a)) as (_ & _ & _ & _ & T5). fold st2 in T5. rewrite T5, upd_same in Hi.
    change (s_latest (fst (add_node st1 (ITransparent o) [w1] [w_ty d] [t]))) with (s_latest st1) in Hi. change (s_elems (fst (add_node st1 (ITransparent o) [w1] [w_ty d] [t]))) with (s_elems st1) in Hi.
    destruct (F1 Bt) as [F1a F1b]. apply in_insert in Hi; auto. pose proof (F1b _ _ Id2) as Y. destruct Hi as [[-> ->]|[Ne Hi]].
    - assert (length (s_elems st1 Bt) < length (s_elems st1 Bt)) by (apply nth_error_Some; congruence). lia.
    - apply F1b in Hi. congruence. }
  destruct Pt as [-> | [-> | [-> | ->]]]; [|apply Bit; auto; now left|apply Bit; auto; now right|].
  - clear Bit. change (qubits_of [TQ]) with 1 in *. change (bits_of [TQ]) with 0 in *. change (params_of [TQ]) with 0 in *. destruct qs as [|a qs]; [simpl in Hq; lia|]. cbn [skipn]. pose proof (Gq a (or_introl eq_refl)) as Ta.
    rewrite find_qubit, (fresh_old st Qb a F Ta).
    destruct (select_lin Op E inp read_op st A N Qb TQ a (a :: qs) bs L eq_refl (or_introl eq_refl) Ta (fun _ => Na a (or_introl eq_refl))) as (L1 & M1 & Hh & d & W & Wq & Fd).
    pose proof (fresh_select st Qb TQ a (a :: qs) bs F) as F1. cbv zeta in *. destruct (n_str _ _ _ _ _ _ L1) as [e1 I1].
    unfold convert. rewrite (data_of_in _ _ _ _ _ (i_keys _ _ _ _ _ _ _ _ I1) W). cbn [fits] in Fd. rewrite Fd. cbn [ty_eqb bind]. eauto.
  - change (params_of [TP]) with 1 in *. destruct ps as [|p ps]; [simpl in Hp; lia|]. exists st, p. auto.
Qed.
Lemma skip_add {A} n m (l : list A) : skipn m (skipn n l) = skipn (n + m) l.
Proof. revert l. induction n as [|n IH]; intros [|a l]; cbn [skipn Nat.add]; auto. apply skipn_nil. Qed.
Lemma find_all_total ts : forall st A N qs bs ps, Lin st A N -> Fresh st -> good_args st qs bs -> NoDup (map a_reg qs) -> NoDup (map a_reg bs) -> (forall a, In a qs -> ~ A (a_reg a)) -> params_lin st ps -> Forall plain_ty ts ->
  qubits_of ts <= length qs -> bits_of ts <= length bs -> params_of ts <= length ps ->
  exists st' vs us, find_typed_wires st ts qs bs ps = Ok (st', vs, us) /\ Fresh st'.
Proof.
  induction ts as [|t ts IH]; intros st A N qs bs ps L F G Nq Nb Na Pk Pl Hq Hb Hp; cbn [DecModel.find_typed_wires]; [do 3 eexists; split; [reflexivity|exact F]|].
  inversion Pl as [|? ? Pt Pts]; subst. destruct (of_cons t ts) as (O1 & O2 & O3). rewrite O1 in Hq. rewrite O2 in Hb. rewrite O3 in Hp.
  destruct (find_total st A N t qs bs ps L F G Na Pt) as (st1 & w & F1 & Fr1); try lia. rewrite F1. cbn [bind].
  destruct (find_lin Op E inp read_op make_op _ _ _ _ _ _ _ _ _ _ _ _ L G Na F1) as (L1 & M1 & K1 & Fw).
  assert (G1 : good_args st1 (skipn (qubits_of [t]) qs) (skipn (bits_of [t]) bs)).
  { destruct G as [Gq Gb]. destruct t; cbn [found_lin] in Fw; try contradiction.
    - destruct Fw as (a & Qa & _ & _ & _ & Fr). change (skipn (qubits_of [TQ]) qs) with (skipn 1 qs) in *. change (skipn (bits_of [TQ]) bs) with bs in *. rewrite Qa in Nq, Gq. inversion Nq as [|? ? N1 N2]; subst.
      split; intros x Hx; rewrite Fr; [apply Gq; now right| |apply Gb; auto|discriminate]. intros [= X]. apply N1. rewrite <- X. apply in_map; auto.
    - destruct Fw as (a & Qa & _ & _ & _ & Fr & _). change (skipn (qubits_of [TB]) qs) with qs in *. change (skipn (bits_of [TB]) bs) with (skipn 1 bs) in *. rewrite Qa in Nb, Gb. inversion Nb as [|? ? N1 N2]; subst.
      split; intros x Hx; rewrite Fr; [apply Gq; auto|discriminate|apply Gb; now right|]. intros [= X]. apply N1. rewrite <- X. apply in_map; auto.
    - destruct Fw as (a & Qa & _ & _ & _ & Fr & _). change (skipn (qubits_of [TT]) qs) with qs in *. change (skipn (bits_of [TT]) bs) with (skipn 1 bs) in *. rewrite Qa in Nb, Gb. inversion Nb as [|? ? N1 N2]; subst.
      split; intros x Hx; rewrite Fr; [apply Gq; auto|discriminate|apply Gb; now right|]. intros [= X]. apply N1. rewrite <- X. apply in_map; auto.
    - destruct Fw as (_ & _ & _ & ->). split; auto. }
  assert (Sk : forall n (l : list arg), NoDup (map a_reg l) -> NoDup (map a_reg (skipn n l))).
  { intros n l H. rewrite <- (firstn_skipn n l), map_app in H. exact (nodup_right _ _ H). }
  assert (In_skip : forall n (l : list arg) x, In x (skipn n l) -> In x l) by (intros n l x H; rewrite <- (firstn_skipn n l); apply in_or_app; auto).
  destruct (IH st1 A N (skipn (qubits_of [t]) qs) (skipn (bits_of [t]) bs) (skipn (params_of [t]) ps)) as (st2 & vs & us & F2 & Fr2); auto; try (rewrite skipn_length; lia).
  - intros a Ha. apply Na. eapply In_skip; eauto.
  - pose proof (params_more Op E inp _ _ _ M1 Pk) as Pk1. unfold DecLinear.params_lin in *. rewrite <- (firstn_skipn (params_of [t]) ps), Forall_app in Pk1. apply Pk1.
  - rewrite F2. cbn [bind]. destruct t; do 3 eexists; (split; [reflexivity|exact Fr2]).
Qed.
Lemma register_total ts : forall (st : state) ws qs bs, Fresh st -> length ws = length ts -> Forall out_ty ts -> qubits_of ts = length qs -> bits_of ts = length bs -> exists st', register_outputs st ws ts qs bs = Ok st' /\ Fresh st'.
Proof.
  induction ts as [|t ts IH]; intros st [|w ws] qs bs F Lw Pl Hq Hb; try discriminate; cbn [register_outputs].
  - destruct qs; [|discriminate]. destruct bs; [|discriminate]. cbn. eauto.
  - inversion Pl as [|? ? Pt Pts]; subst. destruct (of_cons t ts) as (O1 & O2 & _). rewrite O1 in Hq. rewrite O2 in Hb.
    assert (C : count_or_default t = {| cq := qubits_of [t]; cb := bits_of [t]; cp := 0 |}) by (destruct Pt as [-> | [-> | ->]]; reflexivity). rewrite C. cbn [cq cb].
    rewrite !firstn_length_le by lia. rewrite !Nat.eqb_refl. cbn [andb]. apply IH; auto; [apply fresh_wire; auto|rewrite skipn_length; lia|rewrite skipn_length; lia].
Qed.
Variable POp : Type.
Variable lookup : POp -> nat -> nat -> nat -> option (dec Op).
Variable opaque : POp -> Op.
Notation process_command := (process_command lookup opaque read_op make_op).
Notation run_decoder := (run_decoder lookup opaque read_op make_op).
(** An operation that reads no bits, with as many arguments as it needs. *)
Definition fitting (o : POp) (nq nb np : nat) : Prop := forall d, lookup o nq nb np = Some d ->
  d_take d = 0 /\ d_drop d = 0 /\ Forall plain_ty (d_in d) /\ qubits_of (d_in d) = nq /\ bits_of (d_in d) = 0 /\ params_of (d_in d) = np /\ Forall out_ty (d_out d) /\ qubits_of (d_out d) = nq /\ bits_of (d_out d) = nb.
Lemma args_total args : forall st, Fresh st -> (forall r, In r args -> In r (map fst (s_latest st Qb)) \/ In r (map fst (s_latest st Bt))) -> exists qs bs, args_to_elems st args = Ok (qs, bs).
Proof.
  induction args as [|r args IH]; intros st F H; cbn [args_to_elems]; [eauto|].
  destruct (IH st F (fun x Hx => H x (or_intror Hx))) as (qs & bs & Q). rewrite Q.
  destruct (get r (s_latest st Bt)) as [i|] eqn:G.
  - destruct (F Bt) as [N _]. apply get_in in G; auto. destruct (fresh_tracked st Bt r F) as (a & -> & _); [apply in_map_iff; exists (r, i); auto|]. cbn [bind]. eauto.
  - apply get_none in G. destruct (H r (or_introl eq_refl)) as [X|X]; [|contradiction]. destruct (fresh_tracked st Qb r F X) as (a & -> & _). cbn [bind]. eauto.
Qed.
Lemma no_params ts : Forall out_ty ts -> params_of ts = 0.
Proof. intros H. unfold params_of. induction H as [|t ts Pt H IH]; auto. destruct Pt as [-> | [-> | ->]]; exact IH. Qed.
Lemma process_total st c : Lin st none none -> Fresh st -> NoDup (p_args c) -> (forall r, In r (p_args c) -> In r (map fst (s_latest st Qb)) \/ In r (map fst (s_latest st Bt))) ->
  fitting (p_op c) (length (arg_qubits (map fst (s_latest st Bt)) (p_args c))) (length (arg_bits (map fst (s_latest st Bt)) (p_args c))) (length (p_params c)) ->
  exists st', process_command st c = Ok st' /\ Fresh st'.
Proof.
  intros L F Nd Hk U. unfold DecModel.process_command. destruct (n_str _ _ _ _ _ _ L) as [e I].
  destruct (args_total _ _ F Hk) as (qs & bs & A). rewrite A. cbn [bind].
  destruct (args_ok _ _ _ _ _ _ _ _ _ _ _ I A) as (Mq & Mb & G). rewrite <- Mq, <- Mb, !map_length in U.
  destruct (load_params st (p_params c)) as [st1 ps] eqn:Lo.
  destruct (load_lin Op E inp _ _ _ _ _ _ L Lo) as (L1 & M1 & Tk & Pk). destruct (fresh_load _ _ _ _ F Lo) as [F1 Lp]. rewrite <- Lp in U.
  assert (G1 : good_args st1 qs bs) by (destruct G; split; intros; rewrite (tracked_same Op E st st1); auto).
  assert (Nq : NoDup (map a_reg qs)) by (rewrite Mq; apply NoDup_filter; auto).
  assert (Nb : NoDup (map a_reg bs)) by (rewrite Mb; apply NoDup_filter; auto).
  destruct (lookup (p_op c) (length qs) (length bs) (length ps)) as [d|] eqn:Lk.
  - destruct (U d Lk) as (U1 & U2 & U3 & U4 & U5 & U6 & U7 & U8 & U9). rewrite U1, U2. cbn [Nat.ltb Nat.leb orb firstn skipn].
    unfold add_node_with_wires. rewrite (csum_plain _ U3), (csum_plain _ (plain_of_out Op unit unit (run0 Op) (prun0 Op) read_op _ U7)). cbn [cq cb cp length]. rewrite U4, U5, U6, U8, U9, (no_params _ U7), !Nat.eqb_refl. cbn [andb negb].
    assert (G1' : good_args st1 qs []) by (destruct G1; split; auto; intros ? []).
    destruct (find_all_total (d_in d) st1 none none qs [] ps L1 F1 G1' Nq ltac:(constructor) ltac:(intros ? _ []) Pk U3) as (st2 & vs & us & Q2 & F2); try (simpl; lia). rewrite Q2. cbn [bind fold_left].
    destruct (add_node st2 (IEmit (d_op d)) (vs ++ us) (d_in d) (d_out d)) as [s0 w0] eqn:An. apply register_total; auto.
    + unfold add_node in An. injection An as <- _. eapply fresh_same; [exact F2| |]; reflexivity.
    + unfold add_node in An. injection An as _ <-. apply seq_length.
  - unfold build_opaque. set (tv := repeat TQ (length qs) ++ repeat TB (length bs)).
    assert (T1 : qubits_of (repeat TQ (length qs)) = length qs /\ bits_of (repeat TQ (length qs)) = 0 /\ params_of (repeat TQ (length qs)) = 0).
    { unfold qubits_of, bits_of, params_of. clear. induction qs; simpl; auto. destruct IHqs as (-> & -> & ->). auto. }
    assert (T2 : qubits_of (repeat TB (length bs)) = 0 /\ bits_of (repeat TB (length bs)) = length bs /\ params_of (repeat TB (length bs)) = 0).
    { unfold qubits_of, bits_of, params_of. clear. induction bs; simpl; auto. destruct IHbs as (-> & -> & ->). auto. }
    assert (T3 : qubits_of (repeat TP (length ps)) = 0 /\ bits_of (repeat TP (length ps)) = 0 /\ params_of (repeat TP (length ps)) = length ps).
    { unfold qubits_of, bits_of, params_of. clear. induction ps; simpl; auto. destruct IHps as (-> & -> & ->). auto. }
    assert (Tq : qubits_of tv = length qs) by (unfold tv, qubits_of in *; rewrite of_app; lia).
    assert (Tb : bits_of tv = length bs) by (unfold tv, bits_of in *; rewrite of_app; lia).
    assert (Uo : Forall out_ty tv) by (apply Forall_forall; intros t Ht; apply in_app_or in Ht; destruct Ht as [Ht|Ht]; apply repeat_spec in Ht; unfold out_ty; auto).
    assert (Pv : Forall plain_ty (tv ++ repeat TP (length ps))).
    { apply Forall_app. split; [exact (plain_of_out Op unit unit (run0 Op) (prun0 Op) read_op _ Uo)|]. apply Forall_forall. intros t Ht. apply repeat_spec in Ht. subst t. unfold plain_ty. auto. }
    destruct (find_all_total (tv ++ repeat TP (length ps)) st1 none none qs bs ps L1 F1 G1 Nq Nb ltac:(intros ? _ []) Pk Pv) as (st2 & vs & us & Q2 & F2).
    + unfold qubits_of in *. rewrite of_app. lia.
    + unfold bits_of in *. rewrite of_app. lia.
    + unfold params_of in *. rewrite of_app. pose proof (no_params _ Uo) as X. unfold params_of in X. lia.
    + rewrite Q2. cbn [bind]. destruct (add_node st2 (IEmit (opaque (p_op c))) (vs ++ us) (tv ++ repeat TP (length ps)) tv) as [s0 w0]  eqn:An. eexists. split; [reflexivity|].
      assert (F3 : Fresh s0) by (unfold add_node in An; injection An as <- _; eapply fresh_same; [exact F2| |]; reflexivity).
      assert (Fl : forall t l (s : state), Fresh s -> Fresh (fold_left (fun st x => track_wire st (fst x) t [a_reg (snd x)] []) l s) /\ Fresh (fold_left (fun st x => track_wire st (fst x) t [] [a_reg (snd x)]) l s)).
      { clear. intros t l. induction l as [|x l IH]; intros s Fs; cbn [fold_left]; auto. split; apply IH; apply fresh_wire; auto. }
      apply Fl. apply Fl. exact F3.
Qed.
Definition all_fitting (qubits bits : list nat) (c : pcommand POp E) : Prop :=
  NoDup (p_args c) /\ (forall r, In r (p_args c) -> In r qubits \/ In r bits) /\ sound_out Op POp lookup (p_op c) /\
  fitting (p_op c) (length (arg_qubits bits (p_args c))) (length (arg_bits bits (p_args c))) (length (p_params c)).
Lemma run_total cs : forall st, Lin st none none -> Fresh st -> (forall c, In c cs -> all_fitting (map fst (s_latest st Qb)) (map fst (s_latest st Bt)) c) -> exists st', run_decoder st cs = Ok st' /\ Fresh st'.
Proof.
  induction cs as [|c cs IH]; intros st L F H; cbn [DecModel.run_decoder]; [eauto|]. destruct (H c (or_introl eq_refl)) as (H1 & H2 & H3 & H4).
  destruct (process_total st c L F H1 H2 H4) as (st1 & P1 & F1). rewrite P1. cbn [bind]. destruct (process_lin Op E inp read_op make_op POp lookup opaque _ _ _ L H1 H3 P1) as [L1 K1].
  apply IH; auto. intros x Hx. rewrite !K1. apply H. now right.
Qed.
Lemma inputs_total ts : forall (st : state) ws qs bs, Fresh st -> length ws = length ts -> Forall plain_ty ts -> qubits_of ts <= length qs -> exists st' qs' bs', track_inputs st ws ts qs bs = Ok (st', qs', bs') /\ Fresh st'.
Proof.
  induction ts as [|t ts IH]; intros st [|w ws] qs bs F Lw Pl Hq; try discriminate; cbn [track_inputs]; [eauto 6|].
  inversion Pl as [|? ? Pt Pts]; subst. destruct (of_cons t ts) as (O1 & _ & _). rewrite O1 in Hq. rewrite (plain_count t Pt). cbn [cq cb cp].
  destruct (Nat.eqb _ 0); [apply IH; auto; lia|]. rewrite firstn_length_le, Nat.eqb_refl by lia. cbn [negb]. apply IH; auto; [apply fresh_wire; auto|rewrite skipn_length; lia].
Qed.
Lemma outputs_total ts : forall st A N qs bs ps, Lin st A N -> Fresh st -> good_args st qs bs -> NoDup (map a_reg qs) -> NoDup (map a_reg bs) -> (forall a, In a qs -> ~ A (a_reg a)) -> params_lin st ps -> Forall plain_ty ts ->
  qubits_of ts <= length qs -> bits_of ts <= length bs -> params_of ts <= length ps ->
  exists x, find_outputs read_op make_op st ts qs bs ps = Ok x.
Proof.
  intros st A N qs bs ps L F G Nq Nb Na Pk Pl Hq Hb Hp. destruct (find_all_total ts st A N qs bs ps L F G Nq Nb Na Pk Pl Hq Hb Hp) as (st' & vs & us & Q & _). clear - Q.
  revert st qs bs ps st' vs us Q. induction ts as [|t ts IH]; intros st qs bs ps st' vs us Q; cbn [DecModel.find_typed_wires DecModel.find_outputs] in *; [eauto|].
  destruct (find_typed_wire st t qs bs ps) as [[[[[st1 w] qs1] bs1] ps1]|]; [|discriminate]. cbn [bind] in *. destruct (find_typed_wires st1 ts qs1 bs1 ps1) as [[[st2 vs2] us2]|] eqn:F2; [|discriminate].
  destruct (IH _ _ _ _ _ _ _ F2) as ([[a b] c] & ->). cbn [bind]. eauto.
Qed.
Lemma all_some_total {A} (l : list (option A)) : (forall x, In x l -> x <> None) -> exists r, all_some l = Ok r.
Proof. induction l as [|[a|] l IH]; intros H; cbn [all_some]; [eauto| |exfalso; apply (H None); [now left|reflexivity]]. destruct IH as [r ->]; [intros x Hx; apply H; now right|]. cbn [bind]. eauto. Qed.
Theorem decode_total p ti to perm ops oq : inp = combine (seq 0 (length ti)) (map count_or_default ti) -> Forall plain_ty ti -> Forall plain_ty to -> NoDup (p_qubits p) -> NoDup (p_bits p) ->
  (forall c, In c (p_commands p) -> all_fitting (p_qubits p) (p_bits p) c) ->
  map Some oq = map (fun i => nth_error (p_qubits p) (nth i perm i)) (seq 0 (length (p_qubits p))) -> NoDup oq ->
  qubits_of ti <= length (p_qubits p) -> qubits_of to <= length (p_qubits p) -> bits_of to <= length (p_bits p) -> params_of to <= length ops ->
  exists c, decode lookup opaque read_op make_op p ti to perm ops = Ok c.
Proof.
  intros Hinp Pl Po Nq Nb U Ho No Hi Hoq Hob Hop. unfold decode.
  assert (F0 : Fresh (start (length ti))) by (intros k; split; [constructor|intros ? ? []]).
  (* Inputs *)
  destruct (inputs_total ti (start (length ti)) (seq 0 (length ti)) (p_qubits p) (p_bits p) F0 (seq_length _ _) Pl Hi) as (sta & qa & ba & Ti & Fa).
  assert (Q0 : init ti (p_qubits p) (p_bits p) = Ok (fst (tracks (fst (tracks sta Qb qa)) Bt ba))) by (unfold init; rewrite Ti; reflexivity).
  assert (L0 : Lin (fst (tracks (fst (tracks sta Qb qa)) Bt ba)) none none /\ map fst (s_latest (fst (tracks (fst (tracks sta Qb qa)) Bt ba)) Qb) = p_qubits p /\ map fst (s_latest (fst (tracks (fst (tracks sta Qb qa)) Bt ba)) Bt) = p_bits p).
  { rewrite Hinp. apply (init_lin Op E read_op ti (p_qubits p) (p_bits p)); auto. }
  destruct L0 as (L0 & Kq & Kb). rewrite Q0. cbn [bind]. clear Q0.
  assert (F1 : Fresh (fst (tracks (fst (tracks sta Qb qa)) Bt ba))) by (do 2 apply fresh_tracks; auto).
  set (st0 := fst (tracks (fst (tracks sta Qb qa)) Bt ba)) in *. clearbody st0.
  (* Commands *)
  destruct (run_total (p_commands p) st0 L0 F1) as (st1 & Q1 & F2); [rewrite Kq, Kb; exact U|]. rewrite Q1. cbn [bind].
  destruct (run_lin Op E inp read_op make_op POp lookup opaque (p_commands p) st0 st1 L0) as [L1 Ks1]; auto.
  { intros c Hc. destruct (U c Hc) as (A & _ & B & _). auto. }
  destruct (n_str _ _ _ _ _ _ L1) as [e1 I1].
  assert (X2 : exists qs, known_qubits st1 perm = Ok qs).
  { apply all_some_total. intros x Hx. apply in_map_iff in Hx. destruct Hx as (i & Hx & Hi1). subst x. rewrite <- (map_length fst), Ks1, Kq in Hi1.
    assert (Y : In (nth_error (p_qubits p) (nth i perm i)) (map Some oq)) by (rewrite Ho; apply in_map_iff; eauto). apply in_map_iff in Y. destruct Y as (r & Y & _).
    rewrite <- Kq, <- Ks1, nth_error_map in Y. destruct (nth_error (s_latest st1 Qb) (nth i perm i)) as [[r' id]|] eqn:Ne; [|discriminate]. cbn [fst].
    destruct (fresh_tracked st1 Qb r' F2) as (a & -> & _); [|discriminate]. apply nth_error_In in Ne. apply in_map_iff. exists (r', id). auto. }
  destruct X2 as [qs Q2]. rewrite Q2. cbn [bind].
  assert (X3 : exists bs, known_bits st1 = Ok bs).
  { apply all_some_total. intros x Hx. apply in_map_iff in Hx. destruct Hx as ([r id] & Hx & Hi1). subst x. cbn [fst]. destruct (fresh_tracked st1 Bt r F2) as (a & -> & _); [|discriminate]. apply in_map_iff. exists (r, id). auto. }
  destruct X3 as [bs Q3]. rewrite Q3. cbn [bind]. destruct (load_params st1 ops) as [st2 ps] eqn:Q4.
  unfold known_qubits in Q2. unfold known_bits in Q3. apply all_some_ok in Q2, Q3.
  assert (Tq : forall a, In a qs -> tracked st1 Qb (a_reg a) = Some a).
  { intros a Ha. assert (Hs : In (Some a) (map Some qs)) by (apply in_map; auto). rewrite <- Q2 in Hs. apply in_map_iff in Hs. destruct Hs as (i & Hii & _).
    destruct (nth_error _ _) as [[r id]|]; [|discriminate]. cbn [fst] in Hii. destruct (tracked_facts _ _ _ _ _ _ _ _ _ _ _ I1 Hii) as (-> & _). auto. }
  assert (Tb : forall a, In a bs -> tracked st1 Bt (a_reg a) = Some a).
  { intros a Ha. assert (Hs : In (Some a) (map Some bs)) by (apply in_map; auto). rewrite <- Q3 in Hs. apply in_map_iff in Hs. destruct Hs as ([r id] & Hii & _).
    cbn [fst] in Hii. destruct (tracked_facts _ _ _ _ _ _ _ _ _ _ _ I1 Hii) as (-> & _). auto. }
  assert (Mq : map a_reg qs = oq).
  { assert (X : map Some (map a_reg qs) = map Some oq).
    - rewrite Ho, map_map. rewrite <- (map_map Some (option_map a_reg)), <- Q2, map_map.
      rewrite <- (map_length fst (s_latest st1 Qb)), Ks1, Kq. apply map_ext_in. intros i Hii.
      rewrite <- Kq, <- Ks1, nth_error_map. destruct (nth_error (s_latest st1 Qb) (nth i perm i)) as [[r id]|] eqn:Ne; [|reflexivity]. cbn [option_map fst].
      assert (Hin : In (r, id) (s_latest st1 Qb)) by (eapply nth_error_In; eauto).
      destruct (i_elem _ _ _ _ _ _ _ _ I1 Qb r id Hin) as (x & Hx & Rx). unfold tracked. apply get_in in Hin; [|apply (i_nodup _ _ _ _ _ _ _ _ I1)]. rewrite Hin, Hx. cbn. congruence.
    - clear - X. revert oq X. induction (map a_reg qs) as [|a l IH]; intros [|b m]; simpl; intros H; try discriminate; auto. injection H as -> H. f_equal; auto. }
  assert (Mb : map a_reg bs = p_bits p).
  { assert (X : map Some (map a_reg bs) = map Some (p_bits p)).
    - rewrite map_map. rewrite <- (map_map Some (option_map a_reg)), <- Q3, map_map. rewrite <- Kb, <- Ks1, map_map. apply map_ext_in. intros [r id] Hin. cbn [fst].
      destruct (i_elem _ _ _ _ _ _ _ _ I1 Bt r id Hin) as (x & Hx & Rx). unfold tracked. apply get_in in Hin; [|apply (i_nodup _ _ _ _ _ _ _ _ I1)]. rewrite Hin, Hx. cbn. congruence.
    - clear - X. revert X. generalize (p_bits p). induction (map a_reg bs) as [|a l IH]; intros [|b m]; simpl; intros H; try discriminate; auto. injection H as -> H. f_equal; auto. }
  (* Outputs *)
  destruct (load_lin Op E inp ops _ _ _ _ _ L1 Q4) as (L2 & M2 & Tk & Pk). destruct (fresh_load _ _ _ _ F2 Q4) as [F3 Lp].
  assert (G2 : good_args st2 qs bs) by (split; intros a Ha; rewrite (tracked_same Op E st1 st2); auto).
  assert (Lq : length qs = length (p_qubits p)) by (rewrite <- (map_length a_reg qs), Mq; apply (f_equal (@length _)) in Ho; rewrite !map_length, seq_length in Ho; auto).
  assert (Lb : length bs = length (p_bits p)) by (rewrite <- (map_length a_reg bs), Mb; auto).
  destruct (outputs_total to st2 none none qs bs ps L2 F3 G2) as ([[st3 ws] qs'] & Q5); try rewrite Mq; try rewrite Mb; auto; try lia; try (intros ? _ []). rewrite Q5. cbn [bind]. eauto.
Qed.
End Total.
