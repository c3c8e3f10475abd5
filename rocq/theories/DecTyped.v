(** Proofs about the pytket decoder: without opaque booleans, decoded circuits are well typed. *)
From Coq Require Import List Bool Arith Lia.
From Verif Require Import EncSpec DecSpec DecModel DecProofs DecStep DecFull.
Import ListNotations.

Section Ctx.
Variables Op E : Type.
Notation tnode := (tnode Op E).
Definition ctx (g : list (wire * ty)) (ns : list tnode) : list (wire * ty) := fold_left (fun g n => combine (map fst (nout (t_node n))) (t_out n) ++ g) ns g.
Lemma checked_outs ns : forall g outs, checked g ns outs <-> checked g ns [] /\ forall w t, In (w, t) outs -> type_of (ctx g ns) w = Some t.
Proof.
  induction ns as [|n ns IH]; intros g outs; cbn [checked ctx fold_left].
  - split; [intros H; split; [intros ? ? []|exact H]|intros [_ H]; exact H].
  - rewrite IH. unfold ctx. tauto.
Qed.
Lemma checked_snoc ns n : forall g, checked g (ns ++ [n]) [] <-> checked g ns [] /\ map (type_of (ctx g ns)) (nin (t_node n)) = map Some (t_in n).
Proof.
  induction ns as [|m ns IH]; intros g; cbn [checked ctx fold_left app].
  - split; [intros [H _]; split; [intros ? ? []|exact H]|intros [_ H]; split; [exact H|intros ? ? []]].
  - rewrite IH. unfold ctx. tauto.
Qed.
Lemma ctx_snoc ns n g : ctx g (ns ++ [n]) = combine (map fst (nout (t_node n))) (t_out n) ++ ctx g ns.
Proof. unfold ctx. rewrite fold_left_app. reflexivity. Qed.
Lemma type_of_skip l g w : ~ In w (map fst l) -> type_of (l ++ g) w = type_of g w.
Proof. induction l as [|[x t] l IH]; intros H; cbn [app type_of]; auto. destruct (Nat.eqb_spec x w); [exfalso; apply H; now left|]. apply IH. intros X. apply H. now right. Qed.
Lemma type_of_seq ts : forall n g j, j < length ts -> type_of (combine (seq n (length ts)) ts ++ g) (n + j) = Some (nth j ts TQ).
Proof.
  induction ts as [|t ts IH]; intros n g j L; [simpl in L; lia|]. cbn [length seq combine app type_of]. destruct j as [|j].
  - rewrite Nat.add_0_r, Nat.eqb_refl. reflexivity.
  - destruct (Nat.eqb_spec n (n + S j)); [lia|]. replace (n + S j) with (S n + j) by lia. rewrite IH by (simpl in L; lia). reflexivity.
Qed.
Lemma type_of_in g w t : type_of g w = Some t -> In w (map fst g).
Proof. induction g as [|[x u] g IH]; cbn; [discriminate|]. destruct (Nat.eqb_spec x w); auto. Qed.
End Ctx.

Section Typed.
Variables Op E : Type.
Variable g0 : list (wire * ty).
Variables read_op make_op : Op.
Notation state := (state Op E).
Definition ty_of (st : state) (w : wire) : option ty := type_of (ctx Op E g0 (s_nodes st)) w.
Record Typ (st : state) : Prop := {
  y_checked : checked g0 (s_nodes st) [];
  y_wires : forall w d, In (w, d) (s_wires st) -> ty_of st w = Some (w_ty d) /\ w_ty d <> TT;
  y_next : forall w t, ty_of st w = Some t -> w < s_next st }.
Definition keeps (st st' : state) : Prop := forall w t, ty_of st w = Some t -> ty_of st' w = Some t.
Lemma keeps_refl st : keeps st st.
Proof. intros w t H. exact H. Qed.
Lemma keeps_trans a b c : keeps a b -> keeps b c -> keeps a c.
Proof. intros H K w t X. auto. Qed.
Lemma keeps_same (st st' : state) : s_nodes st' = s_nodes st -> keeps st st'.
Proof. intros Q w t. unfold ty_of. rewrite Q. auto. Qed.
Definition has (st : state) (ws : list wire) (ts : list ty) : Prop := Forall2 (fun w t => ty_of st w = Some t) ws ts.
Lemma has_keeps st st' ws ts : keeps st st' -> has st ws ts -> has st' ws ts.
Proof. intros K H. induction H; constructor; auto. Qed.
Lemma typ_same (st st' : state) : Typ st -> s_nodes st' = s_nodes st -> s_next st' = s_next st -> s_wires st' = s_wires st -> Typ st'.
Proof. intros [a b c] A B C. constructor; unfold ty_of in *; rewrite ?A, ?B, ?C; auto. Qed.
Lemma tracks_fields k rs : forall st : state, s_nodes (fst (tracks st k rs)) = s_nodes st /\ s_next (fst (tracks st k rs)) = s_next st /\ s_wires (fst (tracks st k rs)) = s_wires st.
Proof.
  induction rs as [|r rs IH]; intros st; cbn [tracks]; auto. destruct (track st k r) as [st1 i] eqn:T. specialize (IH st1). destruct (tracks st1 k rs) as [st2 l]. cbn [fst] in *.
  unfold track in T. injection T as <- _. exact IH.
Qed.
Lemma track_wire_fields (st : state) w t qs bs : s_nodes (track_wire st w t qs bs) = s_nodes st /\ s_next (track_wire st w t qs bs) = s_next st /\ exists d, s_wires (track_wire st w t qs bs) = s_wires st ++ [(w, d)] /\ w_ty d = t.
Proof.
  unfold track_wire. pose proof (tracks_fields Qb qs st) as A. destruct (tracks st Qb qs) as [st1 qi]. pose proof (tracks_fields Bt bs st1) as B. destruct (tracks st1 Bt bs) as [st2 bi]. cbn [fst s_nodes s_next s_wires] in *.
  destruct A as (A1 & A2 & A3). destruct B as (B1 & B2 & B3). split; [congruence|]. split; [congruence|]. eexists. rewrite B3, A3. split; reflexivity.
Qed.
Lemma typ_track st w t qs bs : Typ st -> ty_of st w = Some t -> t <> TT -> Typ (track_wire st w t qs bs) /\ keeps st (track_wire st w t qs bs).
Proof.
  intros [a b c] Hw Ht. destruct (track_wire_fields st w t qs bs) as (A & B & d & C & D). split; [|apply keeps_same; auto].
  constructor; unfold ty_of in *; rewrite ?A, ?B, ?C; auto. intros x dd Hx. apply in_app_or in Hx. destruct Hx as [Hx|[Hx|[]]]; auto. injection Hx as <- <-. rewrite D. auto.
Qed.
Lemma typ_marks k (l : list arg) : forall st, Typ st -> Typ (fold_left (fun st a => mark_outdated st k (a_id a)) l st) /\ s_nodes (fold_left (fun st a => mark_outdated st k (a_id a)) l st) = s_nodes st /\ s_next (fold_left (fun st a => mark_outdated st k (a_id a)) l st) = s_next st.
Proof.
  induction l as [|a l IH]; intros st T; cbn [fold_left]; auto. destruct (IH (mark_outdated st k (a_id a))) as (A & B & C); auto. eapply typ_same; eauto.
Qed.
Lemma typ_add st i ins ti to : Typ st -> has st ins ti -> Typ (fst (add_node st i ins ti to)) /\ keeps st (fst (add_node st i ins ti to)) /\ has (fst (add_node st i ins ti to)) (seq (s_next st) (length to)) to.
Proof.
  intros [a b c] Hi. set (st' := fst (add_node st i ins ti to)).
  assert (Cx : ctx Op E g0 (s_nodes st') = combine (seq (s_next st) (length to)) to ++ ctx Op E g0 (s_nodes st)).
  { cbn [st' add_node fst s_nodes]. rewrite ctx_snoc. cbn [t_node nout t_out]. rewrite map_fst_combine; [reflexivity|]. now rewrite seq_length, map_length. }
  assert (Ms : map fst (combine (seq (s_next st) (length to)) to) = seq (s_next st) (length to)) by (apply map_fst_combine; apply seq_length).
  assert (Old : forall w, w < s_next st -> ty_of st' w = ty_of st w).
  { intros w L. unfold ty_of. rewrite Cx. apply type_of_skip. rewrite Ms. intros X. apply in_seq in X. lia. }
  assert (K : keeps st st') by (intros w t Hw; rewrite Old; auto; eapply c; eauto).
  split; [|split; auto].
  - constructor.
    + cbn [st' add_node fst s_nodes]. apply checked_snoc. split; auto. cbn [t_node nin t_in]. clear - Hi. induction Hi; cbn [map]; auto. f_equal; auto.
    + intros w d Hw. change (s_wires st') with (s_wires st) in Hw. destruct (b w d Hw). split; auto.
    + intros w t Hw. change (s_next st') with (s_next st + length to). unfold ty_of in Hw. rewrite Cx in Hw. apply type_of_in in Hw. rewrite map_app, Ms in Hw. apply in_app_or in Hw. destruct Hw as [Hw|Hw]; [apply in_seq in Hw; lia|].
      destruct (type_of (ctx Op E g0 (s_nodes st)) w) as [u|] eqn:Q; [apply c in Q; lia|]. exfalso. clear - Hw Q. induction (ctx Op E g0 (s_nodes st)) as [|[x u] g IH]; [destruct Hw|]. cbn in *. destruct (Nat.eqb_spec x w); [discriminate|]. destruct Hw; auto.
  - assert (X : forall j, j < length to -> ty_of st' (s_next st + j) = Some (nth j to TQ)) by (intros j L; unfold ty_of; rewrite Cx; apply type_of_seq; auto).
    clear - X. revert X. generalize (s_next st). clearbody st'. unfold has. induction to as [|t to IH]; intros n X; cbn [length seq]; constructor.
    + specialize (X 0). rewrite Nat.add_0_r in X. apply X. simpl; lia.
    + apply IH. intros j L. replace (S n + j) with (n + S j) by lia. apply (X (S j)). simpl; lia.
Qed.
Notation find_typed_wire := (find_typed_wire read_op make_op).
Notation find_typed_wires := (find_typed_wires read_op make_op).
Lemma ty_eqb_native a t : native_ty t -> ty_eqb a t = true -> a = t.
Proof. intros [-> | [-> | ->]]; destruct a; simpl; auto; discriminate. Qed.
Lemma skip_has (st : state) n ps : has st ps (repeat TP (length ps)) -> has st (skipn n ps) (repeat TP (length (skipn n ps))).
Proof. revert ps. induction n as [|n IH]; intros [|p ps] H; cbn [skipn]; auto. apply IH. inversion H; auto. Qed.
Lemma find_typed st t qs bs ps st' w qs' bs' ps' : Typ st -> native_ty t -> has st ps (repeat TP (length ps)) -> find_typed_wire st t qs bs ps = Ok (st', w, qs', bs', ps') ->
  Typ st' /\ keeps st st' /\ ty_of st' w = Some t /\ has st' ps' (repeat TP (length ps')).
Proof.
  intros T Nt Hp Q.
  assert (Ini : forall o u r, (u = TQ \/ u = TB) -> forall st1, (st1 = track_wire (fst (add_node st o [] [] [u])) (s_next st) u r [] \/ st1 = track_wire (fst (add_node st o [] [] [u])) (s_next st) u [] r) -> Typ st1 /\ keeps st st1).
  { intros o u r Hu st1 H1. destruct (typ_add st o [] [] [u] T ltac:(constructor)) as (A1 & A2 & A3). cbn [length seq] in A3. inversion A3 as [|? ? ? ? A4 _]; subst.
    assert (Nu : u <> TT) by (destruct Hu; subst; discriminate).
    destruct H1 as [-> | ->]; [destruct (typ_track _ _ _ r [] A1 A4 Nu) as [B1 B2]|destruct (typ_track _ _ _ [] r A1 A4 Nu) as [B1 B2]]; (split; [auto|eapply keeps_trans; eauto]). }
  assert (Main : forall c st1 w1, t <> TP -> Typ st1 -> keeps st st1 ->
    (if existsb a_old (firstn (cq c) qs) then Err OutdatedQubit else if existsb a_old (firstn (cb c) bs) then Err OutdatedBit else
      match data_of st1 w1 with
      | None => Err Panic
      | Some d => if ty_eqb (w_ty d) t then Ok (st1, w1, skipn (cq c) qs, skipn (cb c) bs, ps) else
          o <- match w_ty d, t with TB, TT => Ok make_op | TT, TB => Ok read_op | _, _ => Err CannotTranslateWire end ;;
          let w' := s_next st1 in
          let '(st, _) := add_node st1 (ITransparent o) [w1] [w_ty d] [t] in
          let st := track_wire st w' (w_ty d) (map a_reg (firstn (cq c) qs)) (map a_reg (firstn (cb c) bs)) in
          Ok (mark_wire_outdated st d, w', skipn (cq c) qs, skipn (cb c) bs, ps)
      end) = Ok (st', w, qs', bs', ps') -> Typ st' /\ keeps st st' /\ ty_of st' w = Some t /\ has st' ps' (repeat TP (length ps'))).
  { clear Q. intros c st1 w1 Np T1 K1 Q. destruct (existsb a_old _); [discriminate|]. destruct (existsb a_old _); [discriminate|].
    unfold data_of in Q. destruct (find (fun x => Nat.eqb (fst x) w1) (s_wires st1)) as [[w2 d]|] eqn:Fd; [|discriminate]. apply find_some in Fd. destruct Fd as [Fd Eq]. apply Nat.eqb_eq in Eq. cbn [fst snd] in *. subst w2.
    destruct (y_wires _ T1 _ _ Fd) as [Y1 Y2]. destruct (ty_eqb (w_ty d) t) eqn:Et.
    - injection Q as <- <- <- <- <-. apply ty_eqb_native in Et; auto. rewrite Et in Y1. split; auto. split; auto. split; auto. eapply has_keeps; eauto.
    - exfalso. destruct Nt as [-> | [-> | ->]]; [| |congruence]; destruct (w_ty d); try discriminate; congruence. }
  destruct Nt as [-> | [-> | ->]].
  - cbn [DecModel.find_typed_wire type_to_pytket count_internal] in Q. cbn [Nat.eqb Nat.add cq cb cp] in Q.
    match type of Q with context [find ?f ?l] => destruct (find f l) as [x|] end; cbn [bind] in Q.
    + eapply (Main {| cq := 1; cb := 0; cp := 0 |}); [discriminate|exact T|apply keeps_refl|exact Q].
    + destruct qs as [|q qs]; [discriminate|]. cbn [bind] in Q. destruct (initialize_qubit st (a_reg q)) as [st1 w1] eqn:In1.
      destruct (Ini IAlloc TQ [a_reg q] ltac:(auto) st1) as [T1 K1]; [left; unfold initialize_qubit, add_node in In1; injection In1 as <- _; reflexivity|].
      eapply (Main {| cq := 1; cb := 0; cp := 0 |}); [discriminate|exact T1|exact K1|exact Q].
  - cbn [DecModel.find_typed_wire type_to_pytket count_internal] in Q. cbn [Nat.eqb Nat.add cq cb cp] in Q.
    match type of Q with context [find ?f ?l] => destruct (find f l) as [x|] end; cbn [bind] in Q.
    + eapply (Main {| cq := 0; cb := 1; cp := 0 |}); [discriminate|exact T|apply keeps_refl|exact Q].
    + destruct bs as [|q bs]; [discriminate|]. cbn [bind] in Q. destruct (initialize_bit st (a_reg q)) as [st1 w1] eqn:In1.
      destruct (Ini (IConst false) TB [a_reg q] ltac:(auto) st1) as [T1 K1]; [right; unfold initialize_bit, add_node in In1; injection In1 as <- _; reflexivity|].
      eapply (Main {| cq := 0; cb := 1; cp := 0 |}); [discriminate|exact T1|exact K1|exact Q].
  - cbn [DecModel.find_typed_wire] in Q. destruct ps as [|p ps]; [discriminate|]. injection Q as <- <- <- <- <-. inversion Hp; subst. split; auto. split; [apply keeps_refl|auto].
Qed.
(** Parameters come last. *)
Definition ordered (ts : list ty) : Prop := exists a b, ts = a ++ repeat TP b /\ ~ In TP a.
Lemma find_all_typed ts : forall st qs bs ps st' vs us, Typ st -> Forall native_ty ts -> has st ps (repeat TP (length ps)) -> find_typed_wires st ts qs bs ps = Ok (st', vs, us) ->
  Typ st' /\ keeps st st' /\ has st' (vs ++ us) (filter (fun t => negb (ty_eqb t TP)) ts ++ filter (fun t => ty_eqb t TP) ts).
Proof.
  induction ts as [|t ts IH]; intros st qs bs ps st' vs us T Nt Hp Q; cbn [DecModel.find_typed_wires] in Q.
  - injection Q as <- <- <-. split; auto. split; [apply keeps_refl|constructor].
  - inversion Nt as [|? ? Nt1 Nt2]; subst. destruct (find_typed_wire st t qs bs ps) as [[[[[st1 w] qs1] bs1] ps1]|] eqn:F1; [|discriminate]. cbn [bind] in Q.
    destruct (find_typed_wires st1 ts qs1 bs1 ps1) as [[[st2 vs2] us2]|] eqn:F2; [|discriminate]. cbn [bind] in Q.
    destruct (find_typed _ _ _ _ _ _ _ _ _ _ T Nt1 Hp F1) as (T1 & K1 & W1 & P1). destruct (IH _ _ _ _ _ _ _ T1 Nt2 P1 F2) as (T2 & K2 & H2).
    assert (Q' : st2 = st' /\ (t = TP /\ vs = vs2 /\ us = w :: us2 \/ t <> TP /\ vs = w :: vs2 /\ us = us2)).
    { destruct Nt1 as [-> | [-> | ->]]; injection Q as <- <- <-; (split; [reflexivity|]); [right|right|left]; repeat split; auto; discriminate. }
    destruct Q' as [<- Q']. split; auto. split; [eapply keeps_trans; eauto|]. apply K2 in W1. destruct Q' as [(-> & -> & ->)|(Np & -> & ->)]; cbn [filter ty_eqb negb].
    + apply Forall2_app_inv_l in H2. destruct H2 as (l1 & l2 & H3 & H4 & H5).
      assert (X : l1 = filter (fun t => negb (ty_eqb t TP)) ts /\ l2 = filter (fun t => ty_eqb t TP) ts).
      { assert (Lv : length l1 = length (filter (fun t => negb (ty_eqb t TP)) ts)).
        { apply Forall2_len in H3. rewrite <- H3. clear - F2 Nt2. revert st1 qs1 bs1 ps1 st2 vs2 us2 F2. induction ts as [|u ts IH]; intros st1 qs1 bs1 ps1 st2 vs2 us2 Q; cbn [DecModel.find_typed_wires] in Q; [injection Q as _ <- _; reflexivity|].
          inversion Nt2 as [|? ? N1 N2]; subst. destruct (find_typed_wire st1 u qs1 bs1 ps1) as [[[[[a w] b] c] d]|]; [|discriminate]. cbn [bind] in Q. destruct (find_typed_wires a ts b c d) as [[[e vs] us]|] eqn:F; [|discriminate]. cbn [bind] in Q.
          specialize (IH N2 _ _ _ _ _ _ _ F). destruct N1 as [-> | [-> | ->]]; injection Q as _ <- _; cbn [filter ty_eqb negb length]; auto. }
        clear - H5 Lv. revert H5 Lv. generalize (filter (fun t => negb (ty_eqb t TP)) ts). induction l1 as [|x l IH]; intros [|y m] Q L; try discriminate; cbn in Q; auto. injection Q as -> Q. destruct (IH m Q) as [-> ->]; [simpl in L; lia|]. auto. }
      destruct X as [-> ->]. apply Forall2_app; auto; constructor; auto.
    + assert (Et : ty_eqb t TP = false) by (destruct Nt1 as [-> | [-> | ->]]; auto; congruence). rewrite Et. cbn [negb app]. constructor; auto.
Qed.
Lemma ordered_split ts : Forall native_ty ts -> ordered ts -> filter (fun t => negb (ty_eqb t TP)) ts ++ filter (fun t => ty_eqb t TP) ts = ts.
Proof.
  intros Nt (a & b & -> & Na). rewrite !filter_app. apply Forall_app in Nt. destruct Nt as [Nt _].
  assert (A : filter (fun t => negb (ty_eqb t TP)) a = a /\ filter (fun t => ty_eqb t TP) a = []).
  { induction a as [|x a IH]; auto. inversion Nt; subst. destruct IH as [I1 I2]; auto; [intros X; apply Na; now right|]. cbn [filter]. assert (ty_eqb x TP = false) as -> by (destruct H1 as [-> | [-> | ->]]; auto; exfalso; apply Na; now left). cbn [negb]. rewrite I1, I2. auto. }
  assert (B : filter (fun t => negb (ty_eqb t TP)) (repeat TP b) = [] /\ filter (fun t => ty_eqb t TP) (repeat TP b) = repeat TP b).
  { clear. induction b as [|b [I1 I2]]; cbn [repeat filter ty_eqb negb]; auto. rewrite I1, I2. auto. }
  destruct A as [-> ->], B as [-> ->]. now rewrite app_nil_r.
Qed.
Lemma register_typed ts : forall st ws qs bs st', Typ st -> has st ws ts -> ~ In TT ts -> register_outputs st ws ts qs bs = Ok st' -> Typ st'.
Proof.
  induction ts as [|t ts IH]; intros st ws qs bs st' T H Nt Q; inversion H as [|w ? ws' ? W1 W2]; subst; cbn [register_outputs] in Q.
  - injection Q as <-. apply typ_marks, typ_marks, T.
  - destruct (_ && _) in Q; [|discriminate]. destruct (typ_track st w t (map a_reg (firstn (cq (count_or_default t)) qs)) (map a_reg (firstn (cb (count_or_default t)) bs)) T W1) as [T1 K1]; [intros ->; apply Nt; now left|].
    eapply IH; [exact T1|eapply has_keeps; eauto|intros X; apply Nt; now right|exact Q].
Qed.
Lemma load_typed es : forall st st' ws, Typ st -> load_params st es = (st', ws) -> Typ st' /\ keeps st st' /\ has st' ws (repeat TP (length ws)).
Proof.
  induction es as [|x es IH]; intros st st' ws T Q; cbn [load_params] in Q.
  - injection Q as <- <-. split; auto. split; [apply keeps_refl|constructor].
  - destruct (typ_add st (IParam x) [] [] [TP] T ltac:(constructor)) as (T1 & K1 & H1). inversion H1 as [|? ? ? ? W1 _]; subst.
    destruct (add_node st (IParam x) [] [] [TP]) as [s0 w0] eqn:An. assert (w0 = [s_next st]) as -> by (unfold add_node in An; injection An as _ <-; reflexivity). cbn [fst] in *.
    destruct (load_params s0 es) as [s1 w1] eqn:L. injection Q as <- <-. destruct (IH _ _ _ T1 L) as (T2 & K2 & H2). split; auto. split; [eapply keeps_trans; eauto|]. cbn [app length repeat]. constructor; auto.
Qed.
Variable POp : Type.
Variable lookup : POp -> nat -> nat -> nat -> option (dec Op).
Variable opaque : POp -> Op.
Notation process_command := (process_command lookup opaque read_op make_op).
Notation run_decoder := (run_decoder lookup opaque read_op make_op).
Definition native_op (o : POp) : Prop := forall nq nb np d, lookup o nq nb np = Some d -> Forall native_ty (d_in d) /\ ordered (d_in d) /\ ~ In TT (d_out d).
Lemma process_typed st c st' : Typ st -> native_op (p_op c) -> process_command st c = Ok st' -> Typ st'.
Proof.
  intros T U Q. unfold DecModel.process_command in Q. destruct (args_to_elems st (p_args c)) as [[qs bs]|]; [|discriminate]. cbn [bind] in Q.
  destruct (load_params st (p_params c)) as [st1 ps] eqn:Lo. destruct (load_typed _ _ _ _ T Lo) as (T1 & K1 & Hp).
  destruct (lookup (p_op c) (length qs) (length bs) (length ps)) as [d|] eqn:Lk.
  - destruct (U _ _ _ _ Lk) as (U1 & U2 & U3). destruct (_ || _) in Q; [discriminate|]. unfold add_node_with_wires in Q. destruct (negb _) in Q; [discriminate|]. destruct (negb _) in Q; [discriminate|].
    destruct (find_typed_wires st1 (d_in d) qs (firstn (d_take d) bs) ps) as [[[st2 vs] us]|] eqn:F; [|discriminate]. cbn [bind] in Q.
    destruct (find_all_typed _ _ _ _ _ _ _ _ T1 U1 Hp F) as (T2 & K2 & H2). rewrite (ordered_split _ U1 U2) in H2.
    destruct (typ_add st2 (IEmit (d_op d)) (vs ++ us) (d_in d) (d_out d) T2 H2) as (T3 & K3 & H3).
    destruct (add_node st2 (IEmit (d_op d)) (vs ++ us) (d_in d) (d_out d)) as [s0 w0] eqn:An. assert (w0 = seq (s_next st2) (length (d_out d))) as -> by (unfold add_node in An; injection An as _ <-; reflexivity). cbn [fst] in *.
    destruct (typ_marks Bt (firstn (d_take d) bs) s0 T3) as (T4 & N4 & _). eapply register_typed; [exact T4| |exact U3|exact Q]. eapply has_keeps; [apply keeps_same; exact N4|exact H3].
  - unfold build_opaque in Q. set (tv := repeat TQ (length qs) ++ repeat TB (length bs)) in *.
    destruct (find_typed_wires st1 (tv ++ repeat TP (length ps)) qs bs ps) as [[[st2 vs] us]|] eqn:F; [|discriminate]. cbn [bind] in Q.
    assert (Nv : Forall native_ty tv) by (apply Forall_forall; intros t Ht; apply in_app_or in Ht; destruct Ht as [Ht|Ht]; apply repeat_spec in Ht; subst t; unfold native_ty; auto).
    assert (Nt : Forall native_ty (tv ++ repeat TP (length ps))) by (apply Forall_app; split; auto; apply Forall_forall; intros t Ht; apply repeat_spec in Ht; subst t; unfold native_ty; auto).
    destruct (find_all_typed _ _ _ _ _ _ _ _ T1 Nt Hp F) as (T2 & K2 & H2). rewrite ordered_split in H2; auto.
    2: { exists tv, (length ps). split; auto. intros X. apply in_app_or in X. destruct X as [X|X]; apply repeat_spec in X; discriminate. }
    destruct (typ_add st2 (IEmit (opaque (p_op c))) (vs ++ us) (tv ++ repeat TP (length ps)) tv T2 H2) as (T3 & K3 & H3).
    destruct (add_node st2 (IEmit (opaque (p_op c))) (vs ++ us) (tv ++ repeat TP (length ps)) tv) as [s0 w0] eqn:An. assert (w0 = seq (s_next st2) (length tv)) as -> by (unfold add_node in An; injection An as _ <-; reflexivity). cbn [fst] in *.
    pose proof (opaque_register Op E qs s0 (seq (s_next st2) (length tv)) bs ltac:(rewrite seq_length; unfold tv; rewrite app_length, !repeat_length; reflexivity)) as Or.
    fold tv in Or. rewrite Q in Or. eapply register_typed; [exact T3|exact H3| |exact Or]. intros X. apply in_app_or in X. destruct X as [X|X]; apply repeat_spec in X; discriminate.
Qed.
Lemma run_typed cs : forall st st', Typ st -> (forall c, In c cs -> native_op (p_op c)) -> run_decoder st cs = Ok st' -> Typ st'.
Proof.
  induction cs as [|c cs IH]; intros st st' T H Q; cbn [DecModel.run_decoder] in Q; [injection Q as <-; auto|].
  destruct (process_command st c) as [st1|] eqn:P1; [|discriminate]. cbn [bind] in Q. eapply IH; [|intros; apply H; now right|exact Q]. eapply process_typed; [exact T| |exact P1]. apply H. now left.
Qed.
Lemma inputs_typed ts : forall st ws qs bs st' qs' bs', Typ st -> has st ws ts -> ~ In TT ts -> track_inputs st ws ts qs bs = Ok (st', qs', bs') -> Typ st'.
Proof.
  induction ts as [|t ts IH]; intros st ws qs bs st' qs' bs' T H Nt Q; inversion H as [|w ? ws' ? W1 W2]; subst; cbn [track_inputs] in Q; [injection Q as <- _ _; auto|].
  assert (Nt' : ~ In TT ts) by (intros X; apply Nt; now right). destruct (Nat.eqb _ 0) in Q; [eapply IH; eauto|]. destruct (negb _) in Q; [discriminate|].
  destruct (typ_track st w t (firstn (cq (count_or_default t)) qs) (firstn (cb (count_or_default t)) bs) T W1) as [T1 K1]; [intros ->; apply Nt; now left|].
  eapply IH; [exact T1|eapply has_keeps; eauto|exact Nt'|exact Q].
Qed.
Lemma outputs_typed ts : forall st qs bs ps st' ws qs', Typ st -> Forall native_ty ts -> has st ps (repeat TP (length ps)) -> find_outputs read_op make_op st ts qs bs ps = Ok (st', ws, qs') ->
  Typ st' /\ keeps st st' /\ has st' ws ts.
Proof.
  induction ts as [|t ts IH]; intros st qs bs ps st' ws qs' T Nt Hp Q; cbn [DecModel.find_outputs] in Q.
  - injection Q as <- <- <-. split; auto. split; [apply keeps_refl|constructor].
  - inversion Nt as [|? ? Nt1 Nt2]; subst. destruct (find_typed_wire st t qs bs ps) as [[[[[st1 w] qs1] bs1] ps1]|] eqn:F1; [|discriminate]. cbn [bind] in Q.
    destruct (find_outputs read_op make_op st1 ts qs1 bs1 ps1) as [[[st2 ws2] qs2]|] eqn:F2; [|discriminate]. injection Q as <- <- <-.
    destruct (find_typed _ _ _ _ _ _ _ _ _ _ T Nt1 Hp F1) as (T1 & K1 & W1 & P1). destruct (IH _ _ _ _ _ _ _ T1 Nt2 P1 F2) as (T2 & K2 & H2). split; auto. split; [eapply keeps_trans; eauto|]. constructor; auto.
Qed.
Lemma free_typed qs : forall st, Typ st -> Typ (free_qubits read_op make_op st qs) /\ keeps st (free_qubits read_op make_op st qs).
Proof.
  induction qs as [|q qs IH]; intros st T; cbn [DecModel.free_qubits]; [split; [auto|apply keeps_refl]|].
  destruct (wires_with st Qb (a_id q)); [apply IH; auto|].
  destruct (find_typed_wire st TQ [q] [] []) as [[[[[st1 w1] qs1] bs1] ps1]|] eqn:F; [|apply IH; auto].
  destruct (find_typed _ _ _ _ [] _ _ _ _ _ T (or_introl eq_refl) ltac:(constructor) F) as (T1 & K1 & W1 & _).
  destruct (typ_add st1 IFree [w1] [TQ] [] T1 ltac:(constructor; [exact W1|constructor])) as (T2 & K2 & _). destruct (IH _ T2) as [T3 K3]. split; auto. eapply keeps_trans; [exact K1|]. eapply keeps_trans; eauto.
Qed.
Theorem decode_typed p ti to perm ops (c : tcircuit Op E) : g0 = combine (seq 0 (length ti)) ti -> ~ In TT ti -> Forall native_ty to -> (forall x, In x (p_commands p) -> native_op (p_op x)) ->
  decode lookup opaque read_op make_op p ti to perm ops = Ok c -> well_typed c.
Proof.
  intros Hg Ni No U Q. unfold decode in Q.
  destruct (init ti (p_qubits p) (p_bits p)) as [st0|] eqn:Q0; [|discriminate]. cbn [bind] in Q.
  destruct (run_decoder st0 (p_commands p)) as [st1|] eqn:Q1; [|discriminate]. cbn [bind] in Q.
  destruct (known_qubits st1 perm) as [qs|]; [|discriminate]. cbn [bind] in Q. destruct (known_bits st1) as [bs|]; [|discriminate]. cbn [bind] in Q.
  destruct (load_params st1 ops) as [st2 ps] eqn:Q4.
  destruct (find_outputs read_op make_op st2 to qs bs ps) as [[[st3 ws] qs']|] eqn:Q5; [|discriminate]. cbn [bind] in Q. injection Q as <-.
  assert (Ts : Typ (start (length ti))).
  { constructor; [intros ? ? []|intros ? ? []|]. intros w t Hw. unfold ty_of in Hw. cbn in Hw. apply type_of_in in Hw. rewrite Hg, map_fst_combine in Hw by apply seq_length. apply in_seq in Hw. cbn. lia. }
  assert (Hs : has (start (length ti)) (seq 0 (length ti)) ti).
  { assert (X : forall j, j < length ti -> ty_of (start (length ti)) (0 + j) = Some (nth j ti TQ)).
    { intros j L. unfold ty_of. cbn [start s_nodes ctx fold_left]. rewrite Hg, <- (app_nil_r (combine _ _)). apply type_of_seq; auto. }
    revert X. generalize (start (length ti) : state). generalize 0. clear. unfold has. induction ti as [|t ti IH]; intros n st X; cbn [length seq]; constructor.
    - specialize (X 0). rewrite Nat.add_0_r in X. apply X. simpl; lia.
    - apply IH. intros j L. replace (S n + j) with (n + S j) by lia. apply (X (S j)). simpl; lia. }
  assert (T0 : Typ st0).
  { unfold init in Q0. destruct (track_inputs _ _ _ _ _) as [[[sa qa] ba]|] eqn:Ti; [|discriminate]. cbn [bind] in Q0. injection Q0 as <-. pose proof (inputs_typed _ _ _ _ _ _ _ _ Ts Hs Ni Ti) as Ta.
    destruct (tracks_fields Qb qa sa) as (A1 & A2 & A3). destruct (tracks_fields Bt ba (fst (tracks sa Qb qa))) as (B1 & B2 & B3). eapply typ_same; [exact Ta| | |]; congruence. }
  pose proof (run_typed _ _ _ T0 U Q1) as T1. destruct (load_typed _ _ _ _ T1 Q4) as (T2 & _ & P2). destruct (outputs_typed _ _ _ _ _ _ _ _ T2 No P2 Q5) as (T3 & _ & H3). destruct (free_typed qs' _ T3) as [T4 K4].
  unfold well_typed. cbn [t_inputs t_nodes t_outputs].
  assert (Gi : map (fun x => (fst (fst x), snd x)) (combine (combine (seq 0 (length ti)) (map count_or_default ti)) ti) = g0).
  { rewrite Hg. clear. generalize 0. induction ti as [|t ti IH]; intros n; cbn [length seq map combine fst snd]; auto. f_equal. apply IH. }
  rewrite Gi. apply checked_outs. split; [apply (y_checked _ T4)|]. intros w t Hi. apply K4. clear - H3 Hi. induction H3; [destruct Hi|]. destruct Hi as [Hi|Hi]; auto. injection Hi as <- <-. auto.
Qed.
End Typed.
