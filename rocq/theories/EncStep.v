(** One node of the circuit. *)
From Coq Require Import List Bool Arith Lia.
From Verif Require Import EncSpec EncModel EncFacts EncInv.
Import ListNotations.

Section Look.
Variables V P E : Type.
Variable den : E -> P.
Lemma look_app : forall (a b : env V P) w, look (a ++ b) w = match look a w with Some v => Some v | None => look b w end.
Proof. induction a as [|[x v] a IH]; intros b w; simpl; [reflexivity|]. destruct (Nat.eqb x w); auto. Qed.
Lemma look_none : forall (a : env V P) w, ~ In w (map fst a) -> look a w = None.
Proof. induction a as [|[x v] a IH]; intros w N; simpl; [reflexivity|]. destruct (Nat.eqb x w) eqn:X; [apply Nat.eqb_eq in X; subst; exfalso; apply N; left; auto|]. apply IH. intros F. apply N. right. auto. Qed.
Lemma deal_names : forall outs (qs bs : list V) (ps : list P), map fst (deal outs qs bs ps) = map fst outs.
Proof. induction outs as [|[w x] outs IH]; intros qs bs ps; simpl; [reflexivity|]. f_equal. apply IH. Qed.

(** The registers of the outputs hold what was dealt. *)
Lemma deal_look : forall outs (asg : list (wire * list (value E))) (r : regs V) qs bs ps, NoDup (map fst outs) -> map fst asg = map fst outs ->
  Forall2 (fun x a => (forall k, length (regs_of k (snd a)) = cnt (snd x) k) /\ length (pars_of (snd a)) = cp (snd x)) outs asg ->
  map (r Qb) (regs_in Qb asg) = qs -> map (r Bt) (regs_in Bt asg) = bs -> map den (flat_map (fun a => pars_of (snd a)) asg) = ps ->
  forall w vs, In (w, vs) asg -> look (deal outs qs bs ps) w = Some (read den r vs).
Proof.
  induction outs as [|[w x] outs IH]; intros asg r qs bs ps N M F Q B Ps w' vs I.
  - destruct asg; [destruct I|discriminate].
  - destruct asg as [|[w0 v0] asg]; [discriminate|]. simpl in M. injection M as -> M. inversion F as [|? ? ? ? [L1 L2] F']; subst. inversion N; subst.
    cbn [deal look]. cbn [snd] in *. assert (L1q := L1 Qb). assert (L1b := L1 Bt). simpl in L1q, L1b.
    destruct I as [I|I].
    + injection I as -> ->. rewrite Nat.eqb_refl. unfold read. cbn [regs_in flat_map snd]. rewrite !map_app.
      assert (T : forall A (a b : list A) n, length a = n -> firstn n (a ++ b) = a) by (intros A a b n <-; rewrite firstn_app, firstn_all, Nat.sub_diag; simpl; apply app_nil_r).
      rewrite !T by (rewrite map_length; auto). reflexivity.
    + destruct (Nat.eqb w w') eqn:X. { apply Nat.eqb_eq in X. subst w'. exfalso. apply H1. rewrite <- M. apply (in_map fst) in I. exact I. }
      assert (T : forall A (a b : list A) n, length a = n -> skipn n (a ++ b) = b) by (intros A a b n <-; rewrite skipn_app, skipn_all, Nat.sub_diag; reflexivity).
      apply IH with (asg := asg); auto; cbn [regs_in flat_map snd]; rewrite map_app, T by (rewrite map_length; auto); reflexivity.
Qed.
End Look.

Section Step.
Variables Op E V P : Type.
Variables (zero one : V) (run : Op -> list V -> list V -> list P -> list V * list V) (prun : Op -> list P -> list P) (den : E -> P) (trash : Op -> V -> V).
Variables (out_params : Op -> list E -> list E) (oq ob : Op -> nat).
Hypothesis run_len : forall o q b p, length (fst (run o q b p)) = oq o /\ length (snd (run o q b p)) = ob o.
Hypothesis out_den : forall o es, map den (out_params o es) = prun o (map den es).
Notation state := (state Op E).
Notation value := (value E).
Notation cocc := (count_occ Nat.eq_dec).
Variable c : circuit Op E.
Hypothesis T : tidy Op E out_params oq ob c.

Definition dn_of (l : list (node Op E)) : list wire := map fst (inputs c ++ flat_map nout l).
Definition bound (cs : list wire) (l : list (node Op E)) : Prop := forall w, cocc cs w <= cocc (flat_map nin l) w.
Definition seminv (st : state) (r : regs V) (e : env V P) : Prop := forall w vs n, In (w, (vs, n)) (wires st) -> look e w = Some (read den r vs).
Definition cleank (st : state) (r : regs V) (k : kind) : Prop := forall i, free st k i -> r k i = zero.

Lemma count_of_def : forall w x, In (w, x) (defs c) -> count_of c w = x.
Proof.
  intros w x I. destruct T as [[N _] _ _ _ _ _]. unfold count_of. revert N I. generalize (defs c). clear. induction l as [|[w0 x0] l IH]; intros N I; [destruct I|].
  simpl in N |- *. inversion N; subst. destruct I as [I|I].
  - injection I as -> ->. rewrite Nat.eqb_refl. reflexivity.
  - destruct (Nat.eqb w0 w) eqn:X; [|auto]. apply Nat.eqb_eq in X. subst. exfalso. apply H1. apply (in_map fst) in I. exact I.
Qed.

Section At.
Variables (l1 l2 : list (node Op E)) (n : node Op E).
Hypothesis At : nodes c = l1 ++ n :: l2.

Lemma defs_split : defs c = (inputs c ++ flat_map nout l1) ++ nout n ++ flat_map nout l2.
Proof. unfold defs. rewrite At, flat_map_app. cbn [flat_map]. rewrite <- !app_assoc. reflexivity. Qed.
Lemma n_in : In n (nodes c).
Proof. rewrite At. apply in_or_app. right. left. auto. Qed.

Lemma outs_ok : forall cs, bound cs l1 -> NoDup (map fst (nout n)) /\ forall w x, In (w, x) (nout n) -> ~ In w (dn_of l1) /\ cocc cs w = 0 /\ count_of c w = x.
Proof.
  intros cs B. destruct (g_scoped _ _ _ _ _ _ T) as (N & Sc & _). assert (Ds := defs_split). rewrite Ds, !map_app in N. rewrite <- map_app in N.
  apply NoDup_app_iff in N. destruct N as (N1 & N2 & N3). apply NoDup_app_iff in N2. destruct N2 as (N2 & _ & _). split; [exact N2|].
  intros w x I. assert (Nd : ~ In w (dn_of l1)). { intros F. apply (N3 w F). apply in_or_app. left. apply (in_map fst) in I. exact I. }
  split; [exact Nd|]. split.
  - destruct (cocc cs w) eqn:K; auto. exfalso. specialize (B w). assert (0 < cocc (flat_map nin l1) w) by lia. apply (count_occ_In Nat.eq_dec) in H.
    apply in_flat_map in H. destruct H as (m & Im & H). apply in_split in Im. destruct Im as (a & b & ->). apply Nd. unfold dn_of.
    assert (Q := Sc a m (b ++ n :: l2) w). rewrite At, <- app_assoc in Q. specialize (Q eq_refl H). rewrite flat_map_app, app_assoc, map_app. apply in_or_app. left. exact Q.
  - apply count_of_def. rewrite Ds. apply in_or_app. right. apply in_or_app. auto.
Qed.

Lemma reads_ok : forall cs, bound cs l1 -> forall w, In w (nin n) -> In w (dn_of l1) /\ cocc cs w + cocc (nin n) w <= uses c w.
Proof.
  intros cs B w I. destruct (g_scoped _ _ _ _ _ _ T) as (_ & Sc & _). split; [eapply Sc; eauto|]. specialize (B w). unfold uses. rewrite At, flat_map_app. cbn [flat_map]. rewrite !count_occ_app. lia.
Qed.

Lemma bound_next : forall cs, bound cs l1 -> bound cs (l1 ++ [n]) /\ bound (nin n ++ cs) (l1 ++ [n]).
Proof. intros cs B. split; intros w; specialize (B w); rewrite flat_map_app; cbn [flat_map]; rewrite !count_occ_app; lia. Qed.

Lemma dn_next : dn_of (l1 ++ [n]) = dn_of l1 ++ map fst (nout n).
Proof. unfold dn_of. rewrite flat_map_app. cbn [flat_map]. rewrite app_nil_r, app_assoc, map_app. reflexivity. Qed.

Lemma single_q : forall l w l', nin n = l ++ w :: l' -> 0 < cq (count_of c w) -> uses c w = 1.
Proof.
  intros l w l' Eq L. apply (g_linear _ _ _ _ _ _ T); auto. destruct (g_scoped _ _ _ _ _ _ T) as (_ & Sc & _).
  assert (I : In w (nin n)) by (rewrite Eq; apply in_or_app; right; left; auto). specialize (Sc _ _ _ w At I). unfold defs. rewrite At, flat_map_app, app_assoc, map_app. apply in_or_app. auto.
Qed.

(** What was read *)
Section Read.
Variables (st : state) (cs : list wire).
Hypothesis S : sinv c st (dn_of l1) cs.
Hypothesis B : bound cs l1.
Notation rd := (flat_map (vals st) (nin n)).

Lemma vals_len : forall w, In w (nin n) -> (forall k, length (regs_of k (vals st w)) = cnt (count_of c w) k) /\ length (pars_of (vals st w)) = cp (count_of c w) /\ exists m, In (w, (vals st w, m)) (wires st).
Proof.
  intros w I. destruct (reads_ok cs B w I) as [R1 R2].
  assert (cocc cs w < uses c w) by (apply (count_occ_In Nat.eq_dec) in I; lia).
  assert (Q := s_present _ _ _ _ _ _ S w R1 H). apply in_map_iff in Q. destruct Q as ([w0 [v m]] & Q & In0). simpl in Q. subst w0.
  unfold vals. rewrite (in_find_wire E (wires st) w (v, m) (s_names _ _ _ _ _ _ S) In0). destruct (s_wire _ _ _ _ _ _ S w v m In0) as (_ & _ & _ & A & B'). eauto.
Qed.
Lemma regs_rd : forall k ws, regs_of k (flat_map (vals st) ws) = flat_map (fun w => regs_of k (vals st w)) ws.
Proof. intros k ws. induction ws; simpl; [reflexivity|]. rewrite regs_of_app. f_equal. auto. Qed.
Lemma pars_rd : forall ws, pars_of (flat_map (vals st) ws) = flat_map (fun w => pars_of (vals st w)) ws.
Proof. intros ws. induction ws; simpl; [reflexivity|]. rewrite pars_of_app. f_equal. auto. Qed.
Lemma len_rd : forall k l l', nin n = l ++ l' -> length (flat_map (fun w => regs_of k (vals st w)) l) = total k (map (fun w => (w, count_of c w)) l).
Proof.
  intros k l. induction l as [|w l IH] using rev_ind; intros l' Eq; [reflexivity|]. rewrite <- app_assoc in Eq. specialize (IH _ Eq).
  rewrite flat_map_app, app_length, IH. unfold total. rewrite !map_app. cbn [map flat_map snd]. rewrite app_nil_r, list_sum_app. simpl.
  destruct (vals_len w) as [Lw _]; [rewrite Eq; apply in_or_app; right; left; auto|]. rewrite Lw. lia.
Qed.
Lemma len_ins : forall k, length (regs_of k rd) = total k (ins c n).
Proof. intros k. rewrite regs_rd. apply (len_rd k (nin n) []). rewrite app_nil_r. reflexivity. Qed.
Lemma len_pars : length (pars_of rd) = total_p (ins c n).
Proof.
  rewrite pars_rd. unfold ins, total_p. assert (G : forall l, incl l (nin n) -> length (flat_map (fun w => pars_of (vals st w)) l) = list_sum (map (fun x => cp (snd x)) (map (fun w => (w, count_of c w)) l))).
  { induction l as [|w l IH]; intros I; [reflexivity|]. cbn [flat_map map list_sum snd]. rewrite app_length, IH by (intros x Hx; apply I; right; auto). destruct (vals_len w) as (_ & Lp & _); [apply I; left; auto|]. rewrite Lp. reflexivity. }
  apply G. intros x Hx. exact Hx.
Qed.

Lemma vals_nodup : forall k w, NoDup (regs_of k (vals st w)).
Proof.
  intros k w. unfold vals. destruct (find_wire (wires st) w) as [[v m]|] eqn:X; [|constructor]. apply find_wire_in in X. eapply s_each; eauto.
Qed.
Lemma vals_disj : forall k w w' i, In i (regs_of k (vals st w)) -> In i (regs_of k (vals st w')) -> w = w'.
Proof.
  intros k w w' i. unfold vals. destruct (find_wire (wires st) w) as [[v m]|] eqn:X; [|intros []]. destruct (find_wire (wires st) w') as [[v' m']|] eqn:Y; [|intros _ []].
  intros I J. apply find_wire_in in X. apply find_wire_in in Y. eapply (s_disj _ _ _ _ _ _ S w v m w' v' m'); eauto.
Qed.

Lemma split_take : forall (f : wire -> list nat) ws t i, In i (firstn t (flat_map f ws)) -> exists a w b, ws = a ++ w :: b /\ In i (f w) /\ length (flat_map f a) < t.
Proof.
  intros f ws. induction ws as [|w ws IH]; intros t i I; [rewrite firstn_nil in I; destruct I|].
  cbn [flat_map] in I. rewrite firstn_app in I. apply in_app_or in I. destruct I as [I|I].
  - exists [], w, ws. split; [reflexivity|]. split; [eapply firstn_In; eauto|]. destruct t; [destruct I|simpl; lia].
  - destruct (IH _ _ I) as (a & w' & b & -> & J & L). exists (w :: a), w', b. split; [reflexivity|]. split; [exact J|]. cbn [flat_map]. rewrite app_length. lia.
Qed.

(** The first [t] registers of kind [k] come from wires that are used once. *)
Definition single (k : kind) (t : nat) : Prop :=
  forall l w l', nin n = l ++ w :: l' -> 0 < cnt (count_of c w) k -> total k (map (fun w => (w, count_of c w)) l) < t -> uses c w = 1.

Lemma take_ok : forall k t, single k t ->
  NoDup (firstn t (regs_of k rd)) /\ (forall i, In i (firstn t (regs_of k rd)) -> ~ In i (skipn t (regs_of k rd))) /\
  (forall i, In i (firstn t (regs_of k rd)) -> exists w, In w (nin n) /\ uses c w = 1 /\ In i (regs_of k (vals st w))).
Proof.
  intros k t Sg. rewrite regs_rd.
  assert (Sg' : forall l w l', nin n = l ++ w :: l' -> 0 < length (regs_of k (vals st w)) -> length (flat_map (fun w => regs_of k (vals st w)) l) < t -> uses c w = 1).
  { intros l w l' Eq L1 L2'. apply (Sg l w l' Eq).
    - destruct (vals_len w) as [Lw _]; [rewrite Eq; apply in_or_app; right; left; auto|]. rewrite <- Lw. exact L1.
    - rewrite <- (len_rd k l (w :: l') Eq). exact L2'. }
  destruct (take_nodup (fun w => regs_of k (vals st w)) (nin n) t) as [P1 P2].
  - intros w. apply vals_nodup.
  - intros w w' x. apply vals_disj.
  - intros l w l' Eq L1 L2'. assert (U := Sg' l w l' Eq L1 L2'). assert (I : In w (nin n)) by (rewrite Eq; apply in_or_app; right; left; auto).
    destruct (reads_ok cs B w I) as [_ R]. apply (count_occ_In Nat.eq_dec) in I. lia.
  - split; [exact P1|]. split; [exact P2|]. intros i I. apply split_take in I. destruct I as (a & w & b & Eq & J & L). exists w. split; [rewrite Eq; apply in_or_app; right; left; auto|]. split; [|exact J].
    apply (Sg' a w b Eq); auto. destruct (regs_of k (vals st w)); [destruct J|simpl; lia].
Qed.

Lemma read_app : forall (r : regs V) a b, read den r (a ++ b) = vapp _ _ (read den r a) (read den r b).
Proof. intros r a b. unfold read, vapp. simpl. rewrite !regs_of_app, pars_of_app, !map_app. reflexivity. Qed.
Lemma gather_rd : forall r e, seminv st r e -> gather e (nin n) = Some (read den r rd).
Proof.
  intros r e Sm. assert (G : forall l, incl l (nin n) -> gather e l = Some (read den r (flat_map (vals st) l))).
  { induction l as [|w l IH]; intros I; [reflexivity|]. cbn [gather flat_map]. destruct (vals_len w) as (_ & _ & m & J); [apply I; left; auto|]. rewrite (Sm _ _ _ J), IH by (intros x Hx; apply I; right; auto). rewrite read_app. reflexivity. }
  apply G. intros x Hx. exact Hx.
Qed.
End Read.

(** Operations *)
Lemma write_ext : forall k rest is vs (r r' : regs V) i, (forall j, r k j = r' k j) -> write k rest r is vs k i = write k rest r' is vs k i.
Proof.
  intros k rest is. induction is as [|j is IH]; intros vs r r' i H; simpl; [auto|].
  destruct vs; apply IH; intros j'; unfold set; rewrite kind_eqb_refl; simpl; destruct (Nat.eqb j' j); auto.
Qed.
Definition rest_of (o : Op) (r : regs V) (k : kind) (i : nat) : V := match k with Qb => trash o (r Qb i) | Bt => r Bt i end.
Definition pickv (a b : list V) (k : kind) : list V := match k with Qb => a | Bt => b end.
Lemma run_cop : forall (r : regs V) o qi qn bi bn ps k i,
  run_command Op E V P one run den trash r (COp o qi qn bi bn ps) k i =
  write k (rest_of o r k) r (pick qi bi k ++ pick qn bn k) (pickv (fst (run o (map (r Qb) qi) (map (r Bt) bi) (map den ps))) (snd (run o (map (r Qb) qi) (map (r Bt) bi) (map den ps))) k) k i.
Proof.
  intros. cbn [run_command]. destruct k; simpl.
  - rewrite write_other_kind by discriminate. reflexivity.
  - apply write_ext. intros j. apply write_other_kind. discriminate.
Qed.

Lemma free_add : forall (st : state) cmd k i, free (add_cmd st cmd) k i <-> free st k i.
Proof. reflexivity. Qed.
Lemma sinv_add : forall st cmd dn cs, sinv c st dn cs -> sinv c (add_cmd st cmd) dn cs.
Proof. intros st cmd dn cs S. apply (sinv_same Op E c st); auto; destruct (s_wf _ _ _ _ _ _ S) as [A B]. constructor; auto. Qed.

Definition step_ok (st : state) (cs : list wire) : Prop :=
  exists st' cs' cl, encode_node out_params c st n = Some st' /\ sinv c st' (dn_of (l1 ++ [n])) cs' /\ bound cs' (l1 ++ [n]) /\ cmds st' = cmds st ++ cl /\
    forall r e, seminv st r e -> (forall k, needs_clean k n -> cleank st r k) ->
      exists v, gather e (nin n) = Some v /\ seminv st' (run_commands Op E V P one run den trash r cl) (node_values Op E V P zero one run prun den n v ++ e) /\
        forall k, cleank st r k -> ~ discards c k n -> cleank st' (run_commands Op E V P one run den trash r cl) k.

Lemma step_emit : forall o st cs, what n = IEmit o -> sinv c st (dn_of l1) cs -> bound cs l1 -> step_ok st cs.
Proof.
  intros o st cs W S B. unfold step_ok, encode_node. rewrite W.
  assert (Ty := g_typed _ _ _ _ _ _ T n n_in). rewrite W in Ty. destruct Ty as [Ty1 Ty2].
  destruct (input_values_spec Op E c (nin n) st _ cs S (reads_ok cs B)) as (s1 & A1 & A2 & A3 & A4 & A5 & A6 & A7 & A8 & A9).
  set (rd := flat_map (vals st) (nin n)) in *.
  destruct (outs_ok cs B) as [O1 O2].
  assert (Sg : forall k, single k (total k (nout n))).
  { intros [].
    - intros l w l' Eq L1 _. eapply single_q; eauto.
    - intros l w l' Eq L1 L2'. apply (g_unshared _ _ _ _ _ _ T n w n_in). exists l, l'. split; [exact Eq|]. split; [exact L1|]. rewrite W. exact L2'. }
  assert (Lv : forall k i, In i (regs_of k rd) -> i < size st k /\ ~ free st k i).
  { intros k i I. unfold rd in I. rewrite (regs_rd st) in I. apply in_flat_map in I. destruct I as (w & I & J). destruct (vals_len st cs S B w I) as (_ & _ & m & K).
    assert (F := s_live _ _ _ _ _ _ S _ _ _ k i K J). split; [|exact F]. destruct (le_lt_dec (size st k) i); auto. exfalso. apply F. right. auto. }
  assert (Pk : forall k, pick (regs_of Qb rd) (regs_of Bt rd) k = regs_of k rd) by (intros []; reflexivity).
  assert (Fresh : forall w x, In (w, x) (nout n) -> cocc (nin n ++ cs) w = 0).
  { intros w x I. destruct (O2 w x I) as (N1 & N2 & _). rewrite count_occ_app, N2. destruct (cocc (nin n) w) eqn:K; auto. exfalso. apply N1. apply (reads_ok cs B w). apply (count_occ_In Nat.eq_dec). lia. }
  assert (Z : forall w x, In (w, x) (nout n) -> cp x = 0).
  { intros w x I. revert Ty2 I. unfold total_p. generalize (nout n). induction l as [|[w0 x0] l IH]; intros Z I; [destruct I|]. simpl in Z. destruct I as [I|I]; [injection I as -> ->; lia|apply IH; [lia|auto]]. }
  destruct (register_outputs_spec Op E c (nout n) s1 (dn_of l1) (nin n ++ cs) (regs_of Qb rd) (regs_of Bt rd) A2 O1) as (s2 & qn & bn & asg & C1 & C2 & C3 & C4 & C5 & C6 & C7).
  { intros w x I. destruct (O2 w x I) as (N1 & _ & N3). split; [exact N1|]. split; [eauto|]. split; [exact N3|eauto]. }
  { intros k. rewrite Pk. destruct (take_ok st cs S B k (total k (nout n)) (Sg k)) as (P1 & P2 & P3). split; [exact P1|]. split.
    - intros i I. split; [|rewrite A3; apply (Lv k i); eapply firstn_In; eauto]. destruct (P3 i I) as (w & Iw & U & J). eapply A8; eauto.
    - intros a w x b Eq. unfold rd. rewrite (len_ins st cs S B). eapply (g_unmixed _ _ _ _ _ _ T); eauto using n_in. }
  { intros a w x b Eq Ne. destruct (g_dead _ _ _ _ _ _ T) as [_ D]. eapply D; eauto using n_in. }
  unfold emit_node. rewrite A1. rewrite Ty2. cbn [Nat.eqb]. fold rd. rewrite C1.
  eexists _, (nin n ++ cs), _. split; [reflexivity|].
  split. { apply sinv_add. eapply sinv_ext; [|reflexivity|exact C2]. intros w. rewrite dn_next, !in_app_iff. tauto. }
  split; [apply bound_next; exact B|]. split; [simpl; rewrite C3, A4; reflexivity|].
  intros r e Sm _. assert (Ga := gather_rd st cs S B r e Sm). fold rd in Ga. exists (read den r rd). split; [exact Ga|].
  set (cmd := COp o (regs_of Qb rd) qn (regs_of Bt rd) bn (pars_of rd)). cbn [run_commands fold_left].
  set (r' := run_command Op E V P one run den trash r cmd).
  set (qo := fst (run o (map (r Qb) (regs_of Qb rd)) (map (r Bt) (regs_of Bt rd)) (map den (pars_of rd)))).
  set (bo := snd (run o (map (r Qb) (regs_of Qb rd)) (map (r Bt) (regs_of Bt rd)) (map den (pars_of rd)))).
  assert (R' : forall k i, r' k i = write k (rest_of o r k) r (regs_of k rd ++ pick qn bn k) (pickv qo bo k) k i) by (intros k i; unfold r', cmd; rewrite run_cop, Pk; reflexivity).
  assert (Lo : forall k, length (pickv qo bo k) = total k (nout n)) by (intros k; rewrite Ty1; destruct k; simpl; apply run_len).
  assert (Fn : forall k, firstn (total k (nout n)) (regs_of k rd ++ pick qn bn k) = regs_in k asg).
  { intros k. destruct (C7 k) as (E1 & E2 & _). rewrite Pk in E1, E2. rewrite E1, firstn_app. f_equal. rewrite <- E2. apply firstn_all. }
  assert (Out : forall k, map (r' k) (regs_in k asg) = pickv qo bo k).
  { intros k. destruct (C7 k) as (E1 & E2 & E3 & E4 & E5). rewrite Pk in E1, E2.
    rewrite (map_ext _ _ (R' k)). rewrite <- Fn, <- (Lo k). apply write_first; rewrite Lo.
    - rewrite app_length. lia.
    - rewrite Fn. exact E3.
    - intros i I F. rewrite Fn in I. rewrite skipn_app in F. apply in_app_or in F. destruct F as [F|F].
      + rewrite E1 in I. apply in_app_or in I. destruct I as [I|I].
        * destruct (take_ok st cs S B k (total k (nout n)) (Sg k)) as (_ & P2 & _). apply (P2 i I F).
        * assert (total k (nout n) < length (regs_of k rd)). { destruct (le_lt_dec (length (regs_of k rd)) (total k (nout n))); auto. rewrite skipn_all2 in F by auto. destruct F. }
          destruct (pick qn bn k); [destruct I|simpl in E2; lia].
      + rewrite skipn_all2 in F by lia. destruct F. }
  assert (Old : forall k i, ~ free s1 k i -> ~ In i (regs_in k asg) -> r' k i = r k i).
  { intros k i Nf Ni. rewrite R'. destruct (in_dec Nat.eq_dec i (regs_of k rd ++ pick qn bn k)) as [I|N]; [|apply write_notin; exact N].
    rewrite write_rest; auto; [|rewrite Lo, Fn; exact Ni]. destruct k; [|reflexivity]. exfalso. apply in_app_or in I. destruct I as [I|I].
    - apply Nf. unfold rd in I. rewrite (regs_rd st) in I. apply in_flat_map in I. destruct I as (w & I & J). apply (A8 w I); auto. assert (I' := I). apply in_split in I'. destruct I' as (a & b & Eq).
      apply (single_q a w b Eq). destruct (vals_len st cs S B w I) as [Lw _]. specialize (Lw Qb). simpl in Lw. rewrite <- Lw. destruct (regs_of Qb (vals st w)); [destruct J|simpl; lia].
    - destruct (C7 Qb) as (E1 & _). rewrite E1 in Ni. apply Ni. apply in_or_app. auto. }
  split.
  - intros w vs m I. simpl in I. rewrite look_app. apply C6 in I. destruct I as [I|I].
    + assert (I0 := I). apply A5 in I. destruct I as [m' I]. assert (Nw : ~ In w (map fst (nout n))).
      { intros F. apply in_map_iff in F. destruct F as ([w0 x] & Q & F). simpl in Q. subst w0. destruct (O2 w x F) as (N1 & _). apply N1. eapply s_wire; eauto. }
      assert (Q : node_values Op E V P zero one run prun den n (read den r rd) = deal (nout n) qo bo []) by (unfold node_values; rewrite W; reflexivity).
      rewrite Q, look_none by (rewrite deal_names; exact Nw). rewrite (Sm _ _ _ I). f_equal.
      assert (K : forall k, map (r k) (regs_of k vs) = map (r' k) (regs_of k vs)).
      { intros k. apply map_ext_in. intros i Hi. symmetry. assert (Nf := s_live _ _ _ _ _ _ A2 _ _ _ k i I0 Hi). apply Old; auto. intros F. apply Nf. destruct (C7 k) as (_ & _ & _ & E4 & _). auto. }
      unfold read. rewrite !K. reflexivity.
    + assert (Q : node_values Op E V P zero one run prun den n (read den r rd) = deal (nout n) qo bo []) by (unfold node_values; rewrite W; reflexivity).
      rewrite Q. assert (Pz : Forall2 (fun (x : wire * count) (a : wire * list value) => (forall k, length (regs_of k (snd a)) = cnt (snd x) k) /\ length (pars_of (snd a)) = cp (snd x)) (nout n) asg /\ flat_map (fun a => pars_of (snd a)) asg = []).
      { revert C5 Z. clear. intros F. induction F as [|[w x] [w' v] l l' [H1 H2] F IH]; intros Z; [split; [constructor|reflexivity]|]. simpl in H1, H2. destruct IH as [I1 I2]; [intros; eapply Z; right; eauto|].
        split; [constructor; auto; split; [exact H1|simpl; rewrite H2, (Z w x) by (left; auto); reflexivity]|]. cbn [flat_map snd]. rewrite H2. exact I2. }
      destruct Pz as [Pz1 Pz2]. rewrite (deal_look V P E den (nout n) asg r' qo bo [] O1 C4 Pz1 (Out Qb) (Out Bt)) with (vs := vs); [reflexivity|rewrite Pz2; reflexivity|exact I].
  - intros k Cl Nd i F. rewrite free_add in F. destruct (C7 k) as (E1 & E2 & E3 & E4 & E5). rewrite Pk in E1, E2. destruct (E5 i F) as [F1 F2].
    assert (Ni : ~ In i (regs_in k asg)). { intros I. apply Nd. left. destruct (F2 I) as (w & x & G1 & G2 & G3). exists w, x. auto. }
    assert (Nr : ~ In i (regs_of k rd)).
    { intros I. apply Ni. rewrite E1. apply in_or_app. left. rewrite firstn_all2; [exact I|]. unfold rd. rewrite (len_ins st cs S B). destruct (le_lt_dec (total k (ins c n)) (total k (nout n))); auto. exfalso. apply Nd. right. rewrite W. exact l. }
    apply A7 in F1. destruct F1 as [F1|F1]; [|contradiction]. rewrite R', write_notin; [apply Cl; exact F1|].
    intros I. apply in_app_or in I. destruct I as [I|I]; [contradiction|]. apply Ni. rewrite E1. apply in_or_app. auto.
Qed.

Lemma step_transparent : forall o st cs, what n = ITransparent o -> sinv c st (dn_of l1) cs -> bound cs l1 -> step_ok st cs.
Proof.
  intros o st cs W S B. unfold step_ok, encode_node. rewrite W.
  assert (Ty := g_typed _ _ _ _ _ _ T n n_in). rewrite W in Ty. destruct Ty as [Ty1 Ty2].
  destruct (input_values_spec Op E c (nin n) st _ cs S (reads_ok cs B)) as (s1 & A1 & A2 & A3 & A4 & A5 & A6 & A7 & A8 & A9).
  set (rd := flat_map (vals st) (nin n)) in *.
  destruct (outs_ok cs B) as [O1 O2].
  assert (Sg : forall k, single k (total k (nout n))).
  { intros [].
    - intros l w l' Eq L1 _. eapply single_q; eauto.
    - intros l w l' Eq L1 L2'. apply (g_unshared _ _ _ _ _ _ T n w n_in). exists l, l'. split; [exact Eq|]. split; [exact L1|]. rewrite W. exact I. }
  assert (Lv : forall k i, In i (regs_of k rd) -> i < size st k /\ ~ free st k i).
  { intros k i I. unfold rd in I. rewrite (regs_rd st) in I. apply in_flat_map in I. destruct I as (w & I & J). destruct (vals_len st cs S B w I) as (_ & _ & m & K).
    assert (F := s_live _ _ _ _ _ _ S _ _ _ k i K J). split; [|exact F]. destruct (le_lt_dec (size st k) i); auto. exfalso. apply F. right. auto. }
  assert (Pk : forall k, pick (regs_of Qb rd) (regs_of Bt rd) k = regs_of k rd) by (intros []; reflexivity).
  assert (Ln : forall k, length (regs_of k rd) = total k (nout n)) by (intros k; unfold rd; rewrite (len_ins st cs S B), Ty1; reflexivity).
  assert (Lp : length (out_params o (pars_of rd)) = total_p (nout n)) by (apply Ty2; unfold rd; apply (len_pars st cs S B)).
  assert (Fresh : forall w x, In (w, x) (nout n) -> cocc (nin n ++ cs) w = 0).
  { intros w x I. destruct (O2 w x I) as (N1 & N2 & _). rewrite count_occ_app, N2. destruct (cocc (nin n) w) eqn:K; auto. exfalso. apply N1. apply (reads_ok cs B w). apply (count_occ_In Nat.eq_dec). lia. }
  destruct (forward_spec Op E c (nout n) s1 (dn_of l1) (nin n ++ cs) (regs_of Qb rd) (regs_of Bt rd) (out_params o (pars_of rd)) A2 O1) as (s2 & asg & C1 & C2 & C3 & C4 & C5 & C6 & C7 & C8).
  { intros w x I. destruct (O2 w x I) as (N1 & _ & N3). split; [exact N1|]. split; [eauto|exact N3]. }
  { intros k. rewrite Pk. destruct (take_ok st cs S B k (total k (nout n)) (Sg k)) as (P1 & P2 & P3). fold rd in P1, P3. rewrite <- Ln, firstn_all in P1, P3.
    split; [exact P1|]. split; [|apply Ln]. intros i I. split; [|rewrite A3; apply (Lv k i I)]. destruct (P3 i I) as (w & Iw & U & J). eapply A8; eauto. }
  { exact Lp. }
  unfold emit_transparent. rewrite A1. rewrite (Ln Qb), (Ln Bt), Lp, !Nat.eqb_refl. cbn [andb]. rewrite C1.
  exists s2, (nin n ++ cs), []. split; [reflexivity|].
  split. { eapply sinv_ext; [|reflexivity|exact C2]. intros w. rewrite dn_next, !in_app_iff. tauto. }
  split; [apply bound_next; exact B|]. split; [rewrite app_nil_r; congruence|].
  intros r e Sm _. assert (Ga := gather_rd st cs S B r e Sm). fold rd in Ga. exists (read den r rd). split; [exact Ga|]. cbn [run_commands fold_left].
  assert (Q : node_values Op E V P zero one run prun den n (read den r rd) = deal (nout n) (map (r Qb) (regs_of Qb rd)) (map (r Bt) (regs_of Bt rd)) (prun o (map den (pars_of rd)))) by (unfold node_values; rewrite W; reflexivity).
  rewrite Q. split.
  - intros w vs m I. rewrite look_app. apply C6 in I. destruct I as [I|I].
    + apply A5 in I. destruct I as [m' I]. assert (Nw : ~ In w (map fst (nout n))).
      { intros F. apply in_map_iff in F. destruct F as ([w0 x] & Q' & F). simpl in Q'. subst w0. destruct (O2 w x F) as (N1 & _). apply N1. exact (proj1 (s_wire _ _ _ _ _ _ S _ _ _ I)). }
      rewrite look_none by (rewrite deal_names; exact Nw). apply (Sm _ _ _ I).
    + erewrite (deal_look V P E den (nout n) asg r) with (vs := vs); [reflexivity|exact O1|exact C4|exact C5| | | |exact I].
      * destruct (C8 Qb) as [-> _]. reflexivity.
      * destruct (C8 Bt) as [-> _]. reflexivity.
      * rewrite C7. apply out_den.
  - intros k Cl Nd i F. destruct (C8 k) as (E1 & E5). rewrite Pk in E1, E5. destruct (E5 i F) as [F1 F2]. apply A7 in F1. destruct F1 as [F1|F1]; [apply Cl; exact F1|].
    exfalso. apply Nd. left. destruct (F2 F1) as (w & x & G1 & G2 & G3). exists w, x. auto.
Qed.

(** A wire with one new register *)
Lemma fresh_wire : forall k0 st cs w s1 i, sinv c st (dn_of l1) cs -> bound cs l1 -> nout n = [(w, {| cq := match k0 with Qb => 1 | Bt => 0 end; cb := match k0 with Qb => 0 | Bt => 1 end; cp := 0 |})] ->
  new_unit st k0 = (s1, i) -> forall cl, let s1' := match cl with None => s1 | Some x => add_cmd s1 x end in
  exists st', register_wire c s1' w [Reg k0 i] = Some st' /\ sinv c st' (dn_of (l1 ++ [n])) cs /\ cmds st' = cmds s1' /\ cmds s1 = cmds st /\ free st k0 i /\
    (forall w' vs m, In (w', (vs, m)) (wires st') -> In (w', (vs, m)) (wires st) /\ w' <> w \/ w' = w /\ vs = [Reg k0 i]) /\
    (forall k j, free st' k j -> free st k j /\ (k = k0 /\ j = i -> uses c w = 0)).
Proof.
  intros k0 st cs w s1 i S B Eq X cl s1'. destruct (outs_ok cs B) as [O1 O2]. rewrite Eq in O1, O2. destruct (O2 w _ (or_introl eq_refl)) as (N1 & N2 & N3).
  destruct (new_unit_spec Op E st k0 s1 i (s_wf _ _ _ _ _ _ S) X) as (A1 & A2 & A3 & A4 & A5 & A6 & A7 & A8).
  assert (F1 : forall k j, free s1 k j <-> free st k j /\ ~ (k = k0 /\ j = i)).
  { intros k j. destruct (kind_eqb k k0) eqn:Y; [apply kind_eqb_eq in Y; subst; rewrite A7; split; [intros [? ?]; split; auto; tauto|intros [? ?]; split; auto]|].
    assert (k <> k0) by (intros ->; rewrite kind_eqb_refl in Y; discriminate). destruct (A8 k H) as [P1 P2]. unfold free. rewrite P1, P2. split; [intros; split; auto; tauto|intros [? ?]; auto]. }
  assert (S1 : sinv c s1' (dn_of l1) cs).
  { assert (S0 : sinv c s1 (dn_of l1) cs) by (apply (sinv_same Op E c st); auto; intros k j G; apply F1 in G; apply G). unfold s1'. destruct cl; [apply sinv_add|]; exact S0. }
  assert (W1 : wires s1' = wires st) by (unfold s1'; destruct cl; exact A2). assert (Z1 : size s1' = size s1) by (unfold s1'; destruct cl; reflexivity).
  assert (G1 : forall k j, free s1' k j <-> free s1 k j) by (unfold s1'; destruct cl; reflexivity).
  assert (Rg : forall k, regs_of k [@Reg E k0 i] = if kind_eqb k0 k then [i] else []) by (intros k; simpl; rewrite app_nil_r; reflexivity).
  assert (Rin : forall k j, In j (regs_of k [@Reg E k0 i]) <-> k = k0 /\ j = i).
  { intros k j. rewrite Rg. destruct (kind_eqb k0 k) eqn:Y; [apply kind_eqb_eq in Y; subst; simpl; split; [intros [->|[]]; auto|intros [_ ->]; auto]|]. split; [intros []|intros [-> _]; rewrite kind_eqb_refl in Y; discriminate]. }
  destruct (register_wire_spec Op E c s1' (dn_of l1) cs w [Reg k0 i] S1 N1 N2) as (s3 & B1 & B2 & B3 & B4 & B5 & B6).
  - intros k. split; [rewrite Rg; destruct (kind_eqb k0 k); constructor; auto; constructor|]. split; [intros j J; apply Rin in J; destruct J as [-> ->]; rewrite Z1; exact A6|].
    intros w' vs' n' j I J F. apply Rin in F. destruct F as [-> ->]. rewrite W1 in I. exact (s_live _ _ _ _ _ _ S _ _ _ _ _ I J A4).
  - intros k. rewrite N3, Rg. destruct k0, k; reflexivity.
  - rewrite N3. reflexivity.
  - exists s3. split; [exact B1|]. split. { eapply sinv_ext; [|reflexivity|exact B2]. intros w'. rewrite dn_next, Eq, in_app_iff. simpl. tauto. }
    split; [exact B4|]. split; [exact A3|]. split; [exact A4|]. split.
    + intros w' vs m I. rewrite B5, W1 in I. assert (Old : In (w', (vs, m)) (wires st) -> w' <> w) by (intros J ->; apply N1; exact (proj1 (s_wire _ _ _ _ _ _ S _ _ _ J))).
      destruct (Nat.eqb (uses c w) 0); [left; auto|]. destruct I as [I|I]; [injection I as <- <- <-; auto|left; auto].
    + intros k j F. apply B6 in F. destruct F as [[F G]|[U G]].
      * apply G1, F1 in F. split; [apply F|]. rewrite Rin in G. tauto.
      * apply Rin in G. destruct G as [-> ->]. split; [exact A4|auto].
Qed.

Lemma step_one : forall k0 st cs w s1 i (cl : option (command Op E)) (v : V),
  sinv c st (dn_of l1) cs -> bound cs l1 -> nout n = [(w, {| cq := match k0 with Qb => 1 | Bt => 0 end; cb := match k0 with Qb => 0 | Bt => 1 end; cp := 0 |})] -> nin n = [] ->
  new_unit st k0 = (s1, i) ->
  encode_node out_params c st n = register_wire c (match cl with None => s1 | Some x => add_cmd s1 x end) w [Reg k0 i] ->
  (forall x, node_values Op E V P zero one run prun den n x = [(w, {| vq := match k0 with Qb => [v] | Bt => [] end; vb := match k0 with Qb => [] | Bt => [v] end; vp := [] |})]) ->
  (forall r, let r' := run_commands Op E V P one run den trash r (match cl with None => [] | Some x => [x] end) in (forall k j, ~ (k = k0 /\ j = i) -> r' k j = r k j) /\ ((needs_clean k0 n -> r k0 i = zero) -> r' k0 i = v)) ->
  step_ok st cs.
Proof.
  intros k0 st cs w s1 i cl v S B Eq Ei X En Nv Hr. destruct (fresh_wire k0 st cs w s1 i S B Eq X cl) as (st' & A1 & A2 & A3 & A4 & A5 & A6 & A7).
  exists st', cs, (match cl with None => [] | Some x => [x] end). rewrite En. split; [exact A1|]. split; [exact A2|]. split; [apply bound_next; exact B|].
  split. { rewrite A3. destruct cl; simpl; rewrite A4; rewrite ?app_nil_r; reflexivity. }
  intros r e Sm Cl. rewrite Ei. eexists. split; [reflexivity|]. destruct (Hr r) as [H1 H2]. set (r' := run_commands Op E V P one run den trash r (match cl with None => [] | Some x => [x] end)) in *.
  assert (Hi : r' k0 i = v) by (apply H2; intros Nc; apply (Cl k0 Nc); exact A5).
  rewrite Nv. split.
  - intros w' vs m I. cbn [app look]. apply A6 in I. destruct I as [[I Ne]|[-> ->]].
    + destruct (Nat.eqb w w') eqn:Y; [apply Nat.eqb_eq in Y; congruence|]. rewrite (Sm _ _ _ I). f_equal.
      assert (K : forall k, map (r k) (regs_of k vs) = map (r' k) (regs_of k vs)).
      { intros k. apply map_ext_in. intros j Hj. symmetry. apply H1. intros [-> ->]. exact (s_live _ _ _ _ _ _ S _ _ _ _ _ I Hj A5). }
      unfold read. rewrite !K. reflexivity.
    + rewrite Nat.eqb_refl. f_equal. destruct k0; unfold read; simpl; rewrite Hi; reflexivity.
  - intros k Ck Nd j F. destruct (A7 k j F) as [F1 F2]. destruct (Nat.eq_dec j i) as [->|Ne].
    + destruct (kind_eqb k k0) eqn:Y; [apply kind_eqb_eq in Y; subst|rewrite H1; [apply Ck; exact F1|intros [-> _]; rewrite kind_eqb_refl in Y; discriminate]].
      exfalso. apply Nd. left. rewrite Eq. eexists w, _. split; [left; reflexivity|]. split; [destruct k0; simpl; lia|auto].
    + rewrite H1 by tauto. apply Ck. exact F1.
Qed.

Lemma step : forall st cs, sinv c st (dn_of l1) cs -> bound cs l1 -> step_ok st cs.
Proof.
  intros st cs S B. assert (Ty := g_typed _ _ _ _ _ _ T n n_in). destruct (what n) as [| |b|e|o|o] eqn:W.
  - destruct Ty as [Ei [w Eo]]. destruct (new_unit st Qb) as [s1 i] eqn:X. apply (step_one Qb st cs w s1 i None zero); auto.
    + unfold encode_node. rewrite W, Eo, X. reflexivity.
    + intros x. unfold node_values. rewrite W, Eo. reflexivity.
    + intros r. split; [reflexivity|]. intros H. apply H. unfold needs_clean. rewrite W. exact I.
  - unfold step_ok, encode_node. rewrite W. exists st, cs, []. split; [destruct (nout n) as [|[]]; reflexivity|]. rewrite dn_next, Ty. simpl. rewrite !app_nil_r.
    split; [exact S|]. split; [apply bound_next; exact B|]. split; [reflexivity|]. intros r e Sm _. exists (read den r (flat_map (vals st) (nin n))). split; [apply (gather_rd st cs S B); exact Sm|].
    unfold node_values. rewrite W. split; [exact Sm|]. intros k H _. exact H.
  - destruct Ty as [Ei [w Eo]]. destruct (new_unit st Bt) as [s1 i] eqn:X. apply (step_one Bt st cs w s1 i (if b then Some (CSet i) else None) (if b then one else zero)); auto.
    + unfold encode_node. rewrite W, Eo, X. destruct b; reflexivity.
    + intros x. unfold node_values. rewrite W, Eo. destruct b; reflexivity.
    + intros r. destruct b; simpl.
      * split; [|intros _; unfold set; simpl; rewrite Nat.eqb_refl; reflexivity]. intros k j N. unfold set. destruct k; simpl; auto. destruct (Nat.eqb j i) eqn:Y; auto. apply Nat.eqb_eq in Y. exfalso. apply N. auto.
      * split; [reflexivity|]. intros H. apply H. unfold needs_clean. rewrite W. exact I.
  - destruct Ty as [Ei [w Eo]]. unfold step_ok, encode_node. rewrite W, Eo. destruct (outs_ok cs B) as [O1 O2]. rewrite Eo in O1, O2. destruct (O2 w _ (or_introl eq_refl)) as (N1 & N2 & N3).
    destruct (register_wire_spec Op E c st (dn_of l1) cs w [Par e] S N1 N2) as (s3 & B1 & B2 & B3 & B4 & B5 & B6).
    + intros k. split; [constructor|]. split; [intros i []|]. intros w' vs' n' i _ _ [].
    + intros k. rewrite N3. destruct k; reflexivity.
    + rewrite N3. reflexivity.
    + exists s3, cs, []. split; [exact B1|]. split. { eapply sinv_ext; [|reflexivity|exact B2]. intros w'. rewrite dn_next, Eo, in_app_iff. simpl. tauto. }
      split; [apply bound_next; exact B|]. split; [rewrite B4, app_nil_r; reflexivity|]. intros r e0 Sm _. rewrite Ei. eexists. split; [reflexivity|]. cbn [run_commands fold_left].
      unfold node_values. rewrite W, Eo. split.
      * intros w' vs m I. simpl. rewrite B5 in I. assert (Old : In (w', (vs, m)) (wires st) -> look (((w, {| vq := []; vb := []; vp := [den e] |}) :: e0) : env V P) w' = Some (read den r vs)).
        { intros J. simpl. destruct (Nat.eqb w w') eqn:Y; [apply Nat.eqb_eq in Y; subst; exfalso; apply N1; exact (proj1 (s_wire _ _ _ _ _ _ S _ _ _ J))|]. apply (Sm _ _ _ J). }
        destruct (Nat.eqb (uses c w) 0); [apply Old; exact I|]. destruct I as [I|I]; [injection I as <- <- <-; rewrite Nat.eqb_refl; reflexivity|apply Old; exact I].
      * intros k Ck _ i F. apply B6 in F. destruct F as [[F _]|[_ []]]. apply Ck. exact F.
  - eapply step_transparent; eauto.
  - eapply step_emit; eauto.
Qed.
End At.
End Step.
