(** The whole encoder. *)
From Coq Require Import List Bool Arith Lia.
From Verif Require Import EncSpec EncModel EncFacts EncInv EncStep.
Import ListNotations.

Section Whole.
Variables Op E V P : Type.
Variables (zero one : V) (run : Op -> list V -> list V -> list P -> list V * list V) (prun : Op -> list P -> list P) (den : E -> P) (trash : Op -> V -> V).
Variables (out_params : Op -> list E -> list E) (oq ob : Op -> nat).
Hypothesis run_len : forall o q b p, length (fst (run o q b p)) = oq o /\ length (snd (run o q b p)) = ob o.
Hypothesis out_den : forall o es, map den (out_params o es) = prun o (map den es).
Notation state := (state Op E).
Notation value := (value E).
Notation cocc := (count_occ Nat.eq_dec).
Variable c : circuit Op E.
Hypothesis T : tidy Op E out_params oq ob c.

Lemma start_sinv : forall nq nb, sinv c (start nq nb) [] [].
Proof.
  intros nq nb. constructor; simpl; try tauto.
  - constructor; simpl; intros k; [apply seq_NoDup|]. intros i I. apply in_seq in I. lia.
  - constructor.
Qed.

Lemma register_inputs_spec : forall ins st dn ps, sinv c st dn [] -> NoDup (map fst ins) ->
  (forall w x, In (w, x) ins -> ~ In w dn /\ count_of c w = x /\ uses c w > 0) -> total_p ins <= length ps ->
  exists st' vss, register_inputs c st ps ins = Some (st', vss) /\ sinv c st' (map fst ins ++ dn) [] /\ cmds st' = cmds st /\ length vss = length ins /\
    (forall w vs n, In (w, (vs, n)) (wires st) -> In (w, (vs, n)) (wires st')) /\
    (forall w vs n, In (w, (vs, n)) (wires st') -> In (w, (vs, n)) (wires st) \/ exists x, In ((w, x), vs) (combine ins vss)) /\
    (forall w x vs, In ((w, x), vs) (combine ins vss) -> In (w, (vs, uses c w)) (wires st')).
Proof.
  induction ins as [|[w x] ins IH]; intros st dn ps S N H L.
  - exists st, []. simpl. split; [reflexivity|]. split; [exact S|]. split; [reflexivity|]. split; [reflexivity|]. split; [auto|]. split; [auto|]. intros w x vs [].
  - cbn [map] in N. inversion N as [|? ? N1 N2]; subst. destruct (H w x (or_introl eq_refl)) as (H1 & H2 & H3).
    cbn [register_inputs]. destruct (new_units st Qb (cq x)) as [s1 q] eqn:X. destruct (new_units s1 Bt (cb x)) as [s2 b] eqn:Y.
    destruct (alloc_both Op E c _ _ _ _ _ _ _ _ _ S X Y) as (S2 & A1 & A2 & A3 & A4 & A5 & A6).
    set (vs := map (@Reg E Qb) q ++ map (Reg Bt) b ++ map Par (firstn (cp x) ps)).
    assert (RV : forall k, regs_of k vs = pick q b k) by (intros k; unfold vs; apply regs_of_pair3).
    assert (Tp : total_p ((w, x) :: ins) = cp x + total_p ins) by reflexivity. rewrite Tp in L.
    destruct (register_wire_spec Op E c s2 dn [] w vs S2 H1 eq_refl) as (s3 & B1 & B2 & B3 & B4 & B5 & B6).
    + intros k. rewrite RV. destruct (A6 k) as (G1 & G2 & G3). split; [exact G1|]. split; [intros i I; apply G2; exact I|].
      intros w' vs' n' i I J F. rewrite A1 in I. apply G2 in F. exact (s_live _ _ _ _ _ _ S _ _ _ _ _ I J (proj1 F)).
    + intros k. rewrite RV, H2. destruct k; auto.
    + rewrite H2. unfold vs. rewrite !pars_of_app, !pars_of_reg, pars_of_par. simpl. rewrite firstn_length. lia.
    + rewrite B1. destruct (IH s3 (w :: dn) (skipn (cp x) ps) B2 N2) as (s4 & vss & C1 & C2 & C3 & C4 & C5 & C6 & C7).
      * intros w' x' I. destruct (H w' x' (or_intror I)) as (G1 & G2). split; [|exact G2]. intros [<-|F]; [|auto]. apply N1. apply (in_map fst) in I. exact I.
      * rewrite skipn_length. lia.
      * rewrite C1. exists s4, (vs :: vss). split; [reflexivity|].
        split. { eapply sinv_ext; [|reflexivity|exact C2]. intros w'. cbn [map app]. rewrite !in_app_iff. cbn [In]. rewrite in_app_iff. simpl. tauto. }
        split; [congruence|]. split; [simpl; congruence|].
        assert (U : Nat.eqb (uses c w) 0 = false) by (apply Nat.eqb_neq; lia). rewrite U, A1 in B5.
        split. { intros w' vs' n' I. apply C5. rewrite B5. right. exact I. }
        split. { intros w' vs' n' I. apply C6 in I. destruct I as [I|[x' I]]; [|right; exists x'; right; exact I]. rewrite B5 in I. destruct I as [I|I]; [injection I as <- <- <-; right; exists x; left; reflexivity|auto]. }
        intros w' x' vs' [I|I]; [injection I as <- <- <-; apply C5; rewrite B5; left; reflexivity|eapply C7; eauto].
Qed.

Lemma inputs_start : forall nq nb ps, total_p (inputs c) <= length ps ->
  exists st ii, register_inputs c (start nq nb) ps (inputs c) = Some (st, ii) /\ sinv c st (dn_of Op E c []) [] /\ cmds st = [] /\ length ii = length (inputs c) /\
    (forall w vs n, In (w, (vs, n)) (wires st) -> exists x, In ((w, x), vs) (combine (inputs c) ii)) /\
    (forall w x vs, In ((w, x), vs) (combine (inputs c) ii) -> In (w, (vs, uses c w)) (wires st)).
Proof.
  intros nq nb ps L. destruct (g_scoped _ _ _ _ _ _ T) as (N & _). destruct (g_dead _ _ _ _ _ _ T) as [D _].
  assert (N0 : NoDup (map fst (inputs c))) by (unfold defs in N; rewrite map_app in N; apply NoDup_app_iff in N; apply N).
  destruct (register_inputs_spec (inputs c) (start nq nb) [] ps (start_sinv nq nb) N0) as (st & ii & A1 & A2 & A3 & A4 & A5 & A6 & A7); auto.
  - intros w x I. split; [auto|]. split; [eapply count_of_def; eauto; unfold defs; apply in_or_app; auto|eapply D; eauto].
  - exists st, ii. split; [exact A1|]. split. { unfold dn_of. simpl. rewrite app_nil_r. rewrite app_nil_r in A2. exact A2. }
    split; [exact A3|]. split; [exact A4|]. split; [|exact A7]. intros w vs n I. apply A6 in I. destruct I as [[]|I]. exact I.
Qed.

Lemma combine_flat : forall A B C (f : B -> list C) (l : list A) (m : list B), length l = length m -> flat_map f m = flat_map (fun x => f (snd x)) (combine l m).
Proof. induction l as [|a l IH]; intros [|b m] L; simpl in *; try discriminate; [reflexivity|]. rewrite <- IH by lia. reflexivity. Qed.
Lemma NoDup_flat : forall A B (f : A -> list B) l, NoDup l -> (forall a, In a l -> NoDup (f a)) -> (forall a b x, In a l -> In b l -> In x (f a) -> In x (f b) -> a = b) -> NoDup (flat_map f l).
Proof.
  induction l as [|a l IH]; intros N N1 D; simpl; [constructor|]. inversion N; subst. apply NoDup_app_iff. split; [apply N1; left; auto|]. split.
  - apply IH; auto; [intros; apply N1; right; auto|intros; eapply D; eauto; right; auto].
  - intros x I J. apply in_flat_map in J. destruct J as (b & Ib & J). assert (a = b) by (eapply D; eauto; [left; auto|right; auto]). subst. contradiction.
Qed.
Lemma wires_NoDup : forall st dn cs k, sinv c st dn cs -> NoDup (flat_map (fun x => regs_of k (fst (snd x))) (wires st)).
Proof.
  intros st dn cs k S. apply NoDup_flat.
  - apply (NoDup_map_inv fst). apply (s_names _ _ _ _ _ _ S).
  - intros [w [vs n]] I. eapply s_each; eauto.
  - intros [w [vs n]] [w' [vs' n']] i I J A B. simpl in A, B. assert (w = w') by (eapply (s_disj _ _ _ _ _ _ S); eauto). subst w'.
    assert (X := in_find_wire E _ _ _ (s_names _ _ _ _ _ _ S) I). assert (Y := in_find_wire E _ _ _ (s_names _ _ _ _ _ _ S) J). congruence.
Qed.
Lemma ins_NoDup : forall st ii k, sinv c st (dn_of Op E c []) [] -> length ii = length (inputs c) ->
  (forall w x vs, In ((w, x), vs) (combine (inputs c) ii) -> In (w, (vs, uses c w)) (wires st)) -> NoDup (flat_map (regs_of k) ii).
Proof.
  intros st ii k S L H. rewrite (combine_flat _ _ _ (@regs_of E k) (inputs c) ii) by auto. apply NoDup_flat.
  - destruct (g_scoped _ _ _ _ _ _ T) as (N & _). unfold defs in N. rewrite map_app in N. apply NoDup_app_iff in N. destruct N as (N & _). apply NoDup_map_inv in N.
    clear - N. revert ii. induction (inputs c) as [|a l IH]; intros ii; [constructor|]. destruct ii as [|v ii]; [constructor|]. simpl. inversion N; subst. constructor; auto. intros F. apply in_combine_l in F. contradiction.
  - intros [[w x] vs] I. apply H in I. eapply s_each; eauto.
  - intros [[w x] vs] [[w' x'] vs'] i I J A B. simpl in A, B. assert (I1 := H _ _ _ I). assert (J1 := H _ _ _ J).
    assert (w = w') by (eapply (s_disj _ _ _ _ _ _ S); eauto). subst w'.
    assert (X := in_find_wire E _ _ _ (s_names _ _ _ _ _ _ S) I1). assert (Y := in_find_wire E _ _ _ (s_names _ _ _ _ _ _ S) J1).
    assert (vs = vs') by congruence. subst vs'. f_equal. f_equal. apply in_combine_l in I. apply in_combine_l in J.
    rewrite <- (count_of_def Op E out_params oq ob c T w x) by (unfold defs; apply in_or_app; auto). apply (count_of_def Op E out_params oq ob c T). unfold defs. apply in_or_app. auto.
Qed.

Lemma nodes_ok : forall l2 l1 st cs, nodes c = l1 ++ l2 -> sinv c st (dn_of Op E c l1) cs -> bound Op E cs l1 ->
  forall la lb, l2 = la ++ lb -> exists st' cs' cl, encode_nodes out_params c st la = Some st' /\ sinv c st' (dn_of Op E c (l1 ++ la)) cs' /\ bound Op E cs' (l1 ++ la) /\ cmds st' = cmds st ++ cl /\
    forall r e, seminv Op E V P den st r e -> (forall k, (forall m, In m l1 -> ~ discards c k m) -> cleank Op E V zero st r k) -> clean c ->
      exists e', meaning Op E V P zero one run prun den la e = Some e' /\ seminv Op E V P den st' (run_commands Op E V P one run den trash r cl) e'.
Proof.
  intros l2 l1 st cs At S B la. revert l2 l1 st cs At S B. induction la as [|n la IH]; intros l2 l1 st cs At S B lb ->.
  - exists st, cs, []. rewrite !app_nil_r. split; [reflexivity|]. split; [exact S|]. split; [exact B|]. split; [reflexivity|]. intros r e Sm _ _. exists e. split; [reflexivity|exact Sm].
  - simpl in At. destruct (step Op E V P zero one run prun den trash out_params oq ob run_len out_den c T l1 (la ++ lb) n At st cs S B) as (s1 & cs1 & cl1 & A1 & A2 & A3 & A4 & A5).
    assert (At' : nodes c = (l1 ++ [n]) ++ la ++ lb) by (rewrite <- app_assoc; exact At).
    destruct (IH (la ++ lb) (l1 ++ [n]) s1 cs1 At' A2 A3 lb eq_refl) as (s2 & cs2 & cl2 & C1 & C2 & C3 & C4 & C5).
    exists s2, cs2, (cl1 ++ cl2). cbn [encode_nodes]. rewrite A1. rewrite <- app_assoc in C2, C3. split; [exact C1|]. split; [exact C2|]. split; [exact C3|]. split; [rewrite C4, A4, app_assoc; reflexivity|].
    intros r e Sm Cl Cn. destruct (A5 r e Sm) as (v & G1 & G2 & G3).
    { intros k Nc. apply Cl. intros m Im. eapply (Cn k); eauto. }
    destruct (C5 _ _ G2) as (e' & M1 & M2).
    + intros k Nd. apply G3; [apply Cl; intros m Im; apply Nd; apply in_or_app; auto|apply Nd; apply in_or_app; right; left; auto].
    + exact Cn.
    + exists e'. cbn [meaning]. rewrite G1. split; [exact M1|]. unfold run_commands in *. rewrite fold_left_app. exact M2.
Qed.

Lemma outputs_ok : forall st cs, sinv c st (dn_of Op E c (nodes c)) cs -> bound Op E cs (nodes c) -> exists oo, output_values st (outputs c) = Some oo /\
  Forall2 (fun w vs => exists n, In (w, (vs, n)) (wires st)) (outputs c) oo.
Proof.
  intros st cs S B. destruct (g_scoped _ _ _ _ _ _ T) as (_ & _ & Sc).
  assert (G : forall l, incl l (outputs c) -> exists oo, output_values st l = Some oo /\ Forall2 (fun w vs => exists n, In (w, (vs, n)) (wires st)) l oo).
  { induction l as [|w l IH]; intros I; [exists []; split; [reflexivity|constructor]|]. destruct IH as (oo & O1 & O2); [intros x Hx; apply I; right; auto|].
    assert (Iw : In w (outputs c)) by (apply I; left; auto).
    assert (P1 : In w (map fst (wires st))).
    { apply (s_present _ _ _ _ _ _ S); [apply Sc; exact Iw|]. specialize (B w). unfold uses. rewrite count_occ_app. apply (count_occ_In Nat.eq_dec) in Iw. lia. }
    apply in_map_iff in P1. destruct P1 as ([w0 [vs n]] & Q & P1). simpl in Q. subst w0. exists (vs :: oo). cbn [output_values]. rewrite (in_find_wire E _ _ _ (s_names _ _ _ _ _ _ S) P1), O1. split; [reflexivity|]. constructor; eauto. }
  apply G. intros x Hx. exact Hx.
Qed.

Lemma encode_ok : forall nq nb ps, total_p (inputs c) <= length ps ->
  exists enc, encode out_params c nq nb ps = Some enc /\
    (clean c -> faithful Op E V P zero one run prun den trash c (commands enc) (in_values enc) (out_values enc)).
Proof.
  intros nq nb ps L. destruct (inputs_start nq nb ps L) as (s0 & ii & A1 & A2 & A3 & A4 & A5 & A6).
  destruct (nodes_ok (nodes c) [] s0 [] eq_refl A2 ltac:(intros w; simpl; lia) (nodes c) [] ltac:(rewrite app_nil_r; reflexivity)) as (s1 & cs & cl & B1 & B2 & B3 & B4 & B5).
  simpl in B2, B3. destruct (outputs_ok s1 cs B2 B3) as (oo & C1 & C2).
  unfold encode. rewrite A1, B1, C1. eexists. split; [reflexivity|]. intros Cn. simpl.
  split; [intros k; eapply ins_NoDup; eauto|].
  intros e0 r0 F0 Z0. destruct (B5 r0 e0) as (e & M1 & M2).
  - intros w vs n I. apply A5 in I. destruct I as [x I]. revert I F0. clear. intros I F0. induction F0; simpl in I; [destruct I|]. destruct I as [I|I]; [injection I as -> ->; exact H|auto].
  - intros k _ i F. apply Z0. intros I. apply in_flat_map in I. destruct I as (vs & I & J).
    assert (exists a, In (a, vs) (combine (inputs c) ii)) as [[w x] I'].
    { clear - I A4. revert ii I A4. induction (inputs c) as [|a l IH]; intros [|v ii] I A4; simpl in *; try discriminate; [destruct I|]. destruct I as [->|I]; [exists a; auto|]. destruct (IH ii I ltac:(lia)) as [b Hb]. exists b. auto. }
    apply A6 in I'. exact (s_live _ _ _ _ _ _ A2 _ _ _ _ _ I' J F).
  - exact Cn.
  - exists e. split; [exact M1|]. rewrite B4, A3. simpl. clear - C2 M2. induction C2 as [|w vs l l' [n I] F IH]; constructor; [apply (M2 _ _ _ I)|exact IH].
Qed.
End Whole.
