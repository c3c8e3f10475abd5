(** Emitted code refines the meaning of programs. *)
From Coq Require Import List Arith Bool ZArith String Lia.
From Verif Require Import GlobModel GlobSpec GlobProofs LlvmModel LlvmSpec.
Import ListNotations.

Definition stable (n : nat) (a : operand) : Prop :=
  match a with OReg r => r < n | OVal _ => True | OGlobal _ => False end.
Lemma stable_mono : forall n n' a, stable n a -> n <= n' -> stable n' a.
Proof. intros n n' [r|v|g]; simpl; auto; lia. Qed.

Lemma eval_upd : forall m s r v n a, stable n a -> n <= r -> eval m (upd s r v) a = eval m s a.
Proof.
  intros m s r v n [q|x|g]; simpl; intros H L; [ | reflexivity | contradiction].
  unfold upd. destruct (Nat.eqb q r) eqn:E; auto. apply Nat.eqb_eq in E. lia.
Qed.
Lemma eval_same : forall m s r v, eval m (upd s r v) (OReg r) = Some v.
Proof. intros. simpl. unfold upd. now rewrite Nat.eqb_refl. Qed.
Lemma eval_other : forall m s r v q, q <> r -> eval m (upd s r v) (OReg q) = eval m s (OReg q).
Proof. intros. simpl. unfold upd. apply Nat.eqb_neq in H. now rewrite H. Qed.
Lemma eval_val : forall m s v, eval m s (OVal v) = Some v.
Proof. reflexivity. Qed.
Lemma eval_stable : forall m m' s s' n a, stable n a -> (forall r, r < n -> s' r = s r) ->
  eval m' s' a = eval m s a.
Proof. intros m m' s s' n [q|x|g]; simpl; intros H L; [now rewrite L | reflexivity | contradiction]. Qed.
Lemma evals_stable : forall m m' s s' n l, Forall (stable n) l -> (forall r, r < n -> s' r = s r) ->
  evals m' s' l = evals m s l.
Proof.
  induction l as [|a l IH]; simpl; intros F L; auto. inversion F; subst.
  rewrite (eval_stable m m' s s' n a), IH; auto.
Qed.

Lemma exec_app : forall D call fadd m is is' s d,
  exec D call fadd m (is ++ is') s d =
  match exec D call fadd m is s d with
  | Some (Going s d) => exec D call fadd m is' s d
  | r => r
  end.
Proof.
  induction is as [|i is IH]; simpl; intros; auto.
  destruct (step D call fadd m i s d) as [[s' d'|d']|]; auto.
Qed.

Section Refine.
Variables hash take10 : bytes -> bytes.
Variable D : Type.
Variable M : machine D.
Variable fadd : flt -> flt -> flt.
Notation emit := (emit hash take10).
Notation emit_prog := (emit_prog hash take10).
Notation exec := (exec D (abi M) fadd).
Notation mean := (mean D M fadd).
Notation run := (run D M fadd).

Hypothesis NM : no_max M.

Definition tag_ok (o : op) : Prop :=
  match o with Res k tag => tag <> [] /\ List.length (tag_text (Some k) tag) < 256 | _ => True end.

Definition code_ok (o : op) (vs : list wval) (us : list wty) (xs : list operand) (n : nat)
  (is : list instr) (ys : list operand) (n' : nat) (m' : globals) : Prop :=
  forall m s d, keeps m' m -> evals m s xs = Some (map rep vs) ->
    (exists ws d' s', mean o vs d = Some (Go ws d') /\ map ty_of ws = us /\
        exec m is s d = Some (Going s' d') /\ (forall r, r < n -> s' r = s r) /\
        evals m s' ys = Some (map rep ws)) \/
    (exists d', mean o vs d = Some (Panicked d') /\ exec m is s d = Some (Ended d')).

Ltac ev :=
  repeat first
   [ rewrite eval_val | rewrite eval_same
   | rewrite eval_other by lia
   | match goal with
     | H : stable ?n ?a |- context [eval _ (upd _ ?r _) ?a] => rewrite (eval_upd _ _ r _ n a H) by lia
     | H : eval ?m ?s ?a = Some _ |- context [eval ?m ?s ?a] => rewrite H
     end ].
Ltac split_lists :=
  repeat match goal with
  | H : map ty_of ?vs = _ :: _ |- _ => destruct vs as [|? vs]; [discriminate H|]; simpl in H; injection H as ? H
  | H : map ty_of ?vs = [] |- _ => destruct vs; [|discriminate H]; clear H
  | H : ty_of ?v = _ |- _ => destruct v; try discriminate H; simpl in H; try (injection H as H; subst); clear H
  end.
Ltac split_ops :=
  repeat match goal with
  | H : List.length ?xs = Datatypes.S _ |- _ => destruct xs as [|? xs]; [discriminate H|]; simpl in H; injection H as H
  | H : List.length ?xs = 0 |- _ => destruct xs; [|discriminate H]; clear H
  | H : Forall _ (_ :: _) |- _ => inversion H; subst; clear H
  | H : Forall _ [] |- _ => clear H
  end.
Lemma evals_cons : forall m s a l x xs, evals m s (a :: l) = Some (x :: xs) ->
  eval m s a = Some x /\ evals m s l = Some xs.
Proof.
  simpl. intros m s a l x xs H. destruct (eval m s a); try discriminate.
  destruct (evals m s l); try discriminate. injection H as -> ->. auto.
Qed.
Ltac split_evals :=
  simpl map in *;
  repeat match goal with
  | H : evals _ _ (_ :: _) = Some (_ :: _) |- _ => apply evals_cons in H; destruct H as [? H]
  | H : evals _ _ [] = Some _ |- _ => clear H
  end.

Lemma evals_length : forall m s l vs, evals m s l = Some vs -> List.length l = List.length vs.
Proof.
  induction l as [|a l IH]; simpl; intros vs H; [now injection H as <-|].
  destruct (eval m s a); try discriminate. destruct (evals m s l); try discriminate.
  injection H as <-. simpl. f_equal; auto.
Qed.

Lemma stable_reg : forall n r, r < n -> stable n (OReg r).
Proof. auto. Qed.

Lemma upd_other : forall s r v q, q <> r -> upd s r v q = s q.
Proof. intros. unfold upd. apply Nat.eqb_neq in H. now rewrite H. Qed.

Ltac ex := repeat (progress (cbn -[eval upd plus max_qb]; ev;
   repeat match goal with
   | H : ?x = (_, _) |- context [match ?x with (_, _) => _ end] => rewrite H
   end)).
Ltac keep_regs := intros r0 L0; repeat rewrite upd_other by lia; reflexivity.
Ltac stable_list :=
  repeat match goal with
  | |- Forall _ [] => constructor
  | |- Forall _ (_ :: _) => constructor
  | |- stable _ (OReg _) => apply stable_reg; lia
  | |- stable _ (OVal _) => exact I
  | |- stable _ _ => eapply stable_mono; [eassumption|lia]
  end.
Ltac pre :=
  split_lists; match goal with H : List.length _ = List.length _ |- _ => simpl in H end; split_ops;
  do 4 eexists; split; [cbn; reflexivity|]; split; [lia|];
  split; [stable_list|];
  split; [apply keeps_refl|]; split; [reflexivity|];
  intros m2 s0 d K E; split_evals; simpl rep in *.
Ltac lets := cbn [LlvmSpec.mean]; repeat match goal with |- context [let (_, _) := ?x in _] => destruct x eqn:? end.
Ltac done := first [reflexivity | repeat match goal with b : bool |- _ => destruct b end; reflexivity].
Ltac fin :=
  do 3 eexists; split; [reflexivity|]; split; [reflexivity|];
  split; [ex; reflexivity | split; [keep_regs | ex; done]].

Lemma result_tag_ok : forall m k tag, tag <> [] -> List.length (tag_text (Some k) tag) < 256 ->
  exists m' g, result_tag hash take10 m k tag = EOk (m', g) /\
    holds m' g (counted (tag_text (Some k) tag)) /\ keeps m m'.
Proof.
  intros m k tag N L. destruct tag as [|b tag]; [congruence|].
  pose proof (emit_total hash take10 m (b :: tag) (of_string "res_") (tag_prefix k)) as T.
  assert (P : tag_prefix k ++ b :: tag = tag_text (Some k) (b :: tag)) by now rewrite tag_prefix_text.
  rewrite P in T. apply Nat.ltb_lt in L. rewrite L in T. destruct T as [[m' g] T].
  exists m', g. split; [unfold result_tag, generate_global_tag; now rewrite T|].
  destruct (emit_ok _ _ _ _ _ _ _ _ T) as (A & B & _). rewrite P in A. auto.
Qed.

Lemma emit_ok_op : forall o ts us vs xs n m,
  sig o ts us -> map ty_of vs = ts -> tag_ok o ->
  Forall (stable n) xs -> List.length xs = List.length ts ->
  exists is ys n' m', emit o xs n m = EOk (is, ys, n', m') /\ n <= n' /\
    Forall (stable n') ys /\ keeps m m' /\ List.length ys = List.length us /\
    code_ok o vs us xs n is ys n' m'.
Proof.
  intros o ts us vs xs n m HS T TO ST LX.
  destruct HS; try (match goal with H : In ?o [BAnd; BOr; BXor; BEq] |- _ =>
           simpl in H; destruct H as [<-|[<-|[<-|[<-|[]]]]] end).
  1,2,3: pre; left; lets; fin.
  1,2,3,4,5,6: pre; left; lets; fin.
  1: { pre. destruct (m_alloc M d) as [d1 [q|]] eqn:A.
    - left. cbn [LlvmSpec.mean]. rewrite A. pose proof (NM _ _ _ A) as Q. apply Z.eqb_neq in Q.
      do 3 eexists; split; [reflexivity|]; split; [reflexivity|].
      split; [ex; rewrite Q; ex; reflexivity | split; [keep_regs | ex; reflexivity]].
    - left. cbn [LlvmSpec.mean]. rewrite A.
      do 3 eexists; split; [reflexivity|]; split; [reflexivity|].
      split; [ex; rewrite Z.eqb_refl; ex; reflexivity | split; [keep_regs | ex; reflexivity]]. }
  1: pre; left; lets; fin.
  1: { do 4 eexists; split; [cbn; reflexivity|]; split; [lia|]. split; [exact ST|].
    split; [apply keeps_refl|]; split; [exact LX|]. intros m2 s0 d K E. left.
    do 3 eexists; split; [reflexivity|]; split; [exact T|]. split; [reflexivity|]. split; auto. }
  1,2: destruct t; pre; left; lets; fin.
  1,2,3,4,5,6,7,8,9,10,11,12,13,14,15,16: pre; left; lets; fin.
  1: { pre. left. destruct f; lets; fin. }
  1: { pre. destruct f as [|neg|bits]; lets; [right|right|left].
    - eexists; split; [reflexivity|]. ex. reflexivity.
    - eexists; split; [reflexivity|]. ex. destruct neg; ex; reflexivity.
    - fin. }
  1,2: pre; left; lets; fin.
  1: { destruct TO as [TN TL].
    destruct (result_tag_ok m k tag TN TL) as (m1 & g & RT & HG & KG).
    assert (PT : forall z : bytes, firstn (Z.to_nat (Z.of_nat (List.length z))) z = z)
      by (intros z; rewrite Nat2Z.id; apply firstn_all).
    destruct k; simpl in H; try discriminate H; injection H as <-;
    split_lists; match goal with H : List.length _ = List.length _ |- _ => simpl in H end; split_ops;
    (do 4 eexists; split; [cbn [LlvmModel.emit]; unfold emit_result; rewrite RT; reflexivity|];
     split; [lia|]; split; [constructor|]; split; [exact KG|]; split; [reflexivity|];
     intros m2 s0 d K E; split_evals; simpl rep in *; left;
     assert (EG : forall s, eval m2 s (OGlobal g) = Some (VStr (counted (tag_text (Some _) tag))))
       by (intros s; simpl; rewrite (K _ _ HG); reflexivity);
     do 3 eexists; split; [reflexivity|]; split; [reflexivity|];
     split; [|split; [|reflexivity]]).
    1,3,5,7: repeat (progress (cbn -[eval upd plus tag_text Z.of_nat Z.to_nat firstn]; rewrite ?EG; ev)); rewrite PT; reflexivity.
    1,2,3,4: keep_regs. }
  1: { pre. destruct o as [q|]; lets; [left|right].
    - fin.
    - eexists; split; [reflexivity|]. ex. reflexivity. }
Qed.

(** ** Programs *)
Lemma lookup_app : forall X (a b : list (nat * X)) w,
  lookup (a ++ b) w = match lookup a w with Some x => Some x | None => lookup b w end.
Proof. induction a as [|[v x] a IH]; simpl; intros; auto. destruct (Nat.eqb v w); auto. Qed.
Lemma lookup_combine_map : forall X Y (f : X -> Y) ws xs w,
  lookup (combine ws (map f xs)) w = option_map f (lookup (combine ws xs) w).
Proof.
  induction ws as [|v ws IH]; intros [|x xs] w; simpl; auto. destruct (Nat.eqb v w); simpl; auto.
Qed.
Lemma lookup_combine_in : forall X ws (xs : list X) w x, lookup (combine ws xs) w = Some x -> In x xs.
Proof.
  induction ws as [|v ws IH]; intros [|y xs] w x; simpl; try discriminate.
  destruct (Nat.eqb v w); [intros H; injection H as ->; auto | eauto].
Qed.

Definition types_of (env : venv) (G : tenv) : Prop :=
  forall w, lookup G w = option_map ty_of (lookup env w).
Definition covers (n : nat) (G : tenv) (oenv : list (nat * operand)) : Prop :=
  forall w t, lookup G w = Some t -> exists a, lookup oenv w = Some a /\ stable n a.
Definition reps (m : globals) (s : regs) (env : venv) (oenv : list (nat * operand)) : Prop :=
  forall w v, lookup env w = Some v -> exists a, lookup oenv w = Some a /\ eval m s a = Some (rep v).

Lemma lookups_types : forall env G ins ts, types_of env G -> lookups G ins = Some ts ->
  exists vs, lookups env ins = Some vs /\ map ty_of vs = ts.
Proof.
  intros env G ins ts T. revert ts. induction ins as [|w ins IH]; simpl; intros ts H.
  - injection H as <-. exists []. auto.
  - rewrite T in H. destruct (lookup env w) as [v|]; simpl in H; try discriminate.
    destruct (lookups G ins); try discriminate. injection H as <-.
    destruct (IH _ eq_refl) as (vs & -> & <-). exists (v :: vs). auto.
Qed.
Lemma lookups_covers : forall n G oenv ins ts, covers n G oenv -> lookups G ins = Some ts ->
  exists xs, lookups oenv ins = Some xs /\ Forall (stable n) xs /\ List.length xs = List.length ts.
Proof.
  intros n G oenv ins ts C. revert ts. induction ins as [|w ins IH]; simpl; intros ts H.
  - injection H as <-. exists []. auto.
  - destruct (lookup G w) as [t|] eqn:E; try discriminate.
    destruct (lookups G ins); try discriminate. injection H as <-.
    destruct (C _ _ E) as (a & -> & S). destruct (IH _ eq_refl) as (xs & -> & F & L).
    exists (a :: xs). simpl. auto.
Qed.
Lemma lookups_reps : forall m s env oenv ins vs xs, reps m s env oenv ->
  lookups env ins = Some vs -> lookups oenv ins = Some xs -> evals m s xs = Some (map rep vs).
Proof.
  intros m s env oenv ins vs xs R. revert vs xs. induction ins as [|w ins IH]; simpl; intros vs xs H K.
  - injection H as <-. injection K as <-. reflexivity.
  - destruct (lookup env w) as [v|] eqn:E; try discriminate.
    destruct (lookups env ins); try discriminate. injection H as <-.
    destruct (R _ _ E) as (a & A & B). rewrite A in K.
    destruct (lookups oenv ins); try discriminate. injection K as <-. simpl.
    rewrite B, (IH _ _ eq_refl eq_refl). reflexivity.
Qed.
Lemma bind_some : forall X ws (xs : list X) env env', bind ws xs env = Some env' ->
  List.length ws = List.length xs /\ env' = combine ws xs ++ env.
Proof.
  unfold bind. intros X ws xs env env' H. destruct (Nat.eqb _ _) eqn:E; try discriminate.
  apply Nat.eqb_eq in E. now injection H as <-.
Qed.
Lemma bind_len : forall X ws (xs : list X) env, List.length ws = List.length xs ->
  bind ws xs env = Some (combine ws xs ++ env).
Proof. unfold bind. intros. now rewrite H, Nat.eqb_refl. Qed.

Lemma combine_reps : forall m s outs ys ws w v,
  evals m s ys = Some (map rep ws) -> lookup (combine outs ws) w = Some v ->
  exists a, lookup (combine outs ys) w = Some a /\ eval m s a = Some (rep v).
Proof.
  induction outs as [|o outs IH]; intros ys ws w v E L; simpl in L; [discriminate|].
  destruct ws as [|x ws]; [discriminate|]. destruct ys as [|y ys]; [discriminate|].
  simpl map in E. apply evals_cons in E as [E1 E2]. simpl in L |- *.
  destruct (Nat.eqb o w); [injection L as ->; eauto | eauto].
Qed.
Lemma combine_none : forall X Y outs (xs : list X) (ys : list Y) w,
  List.length xs = List.length ys -> lookup (combine outs xs) w = None -> lookup (combine outs ys) w = None.
Proof.
  induction outs as [|o outs IH]; intros [|x xs] [|y ys] w L H; simpl in *; auto; try discriminate.
  destruct (Nat.eqb o w); [discriminate | eauto].
Qed.

Definition simulated (m : globals) (is : list instr) (s : regs) (d : D) (oenv' : list (nat * operand))
  (r : option (res venv D)) : Prop :=
  match r with
  | Some (Go env' d') => exists s', exec m is s d = Some (Going s' d') /\ reps m s' env' oenv'
  | Some (Panicked d') => exec m is s d = Some (Ended d')
  | None => False
  end.

Lemma prog_ok : forall p G oenv n m,
  typed p G -> covers n G oenv ->
  exists is oenv' n' m', emit_prog p oenv n m = EOk (is, oenv', n', m') /\ keeps m m' /\
    forall m2 env s d, keeps m' m2 -> types_of env G -> reps m2 s env oenv ->
      simulated m2 is s d oenv' (run p env d).
Proof.
  induction p as [|[[o ins] outs] p IH]; intros G oenv n m T C; simpl in T.
  - exists [], oenv, n, m. simpl. split; auto. split; [apply keeps_refl|]. intros. exists s. auto.
  - destruct T as (ts & us & G' & L & SG & B & T & TO).
    apply bind_some in B as [LU ->].
    destruct (lookups_covers _ _ _ _ _ C L) as (xs & LO & ST & LX).
    assert (TV : exists vs0, map ty_of vs0 = ts).
    { exists (map (fun t => match t with TQubit => WQubit 0 | TFut t => WFut t 0 | TBool => WBool true
        | TOpaque => WOpaque true | TRot => WRot FNan | TFloat => WFloat FNan | TInt => WInt 0
        | TOptQ => WOptQ None | TOptR => WOptR None | TOptC => WOptC true | TCtx => WCtx end) ts).
      rewrite map_map. rewrite <- (map_id ts) at 2. apply map_ext. intros []; reflexivity. }
    destruct TV as (vs0 & TV).
    destruct (emit_ok_op o ts us vs0 xs n m SG TV TO ST LX)
      as (is & ys & n1 & m1 & EM & LN & SY & K1 & LY & _).
    assert (C' : covers n1 (combine outs us ++ G) (combine outs ys ++ oenv)).
    { intros w t Q. rewrite lookup_app in *. destruct (lookup (combine outs us) w) eqn:E.
      - destruct (lookup (combine outs ys) w) as [a|] eqn:E'.
        + exists a. split; auto. apply lookup_combine_in in E'. rewrite Forall_forall in SY. auto.
        + apply (combine_none _ _ _ _ us) in E'; [congruence | auto].
      - rewrite (combine_none _ _ _ _ ys _ (eq_sym LY) E). destruct (C _ _ Q) as (a & A & S).
        exists a. split; auto. eapply stable_mono; eauto. }
    destruct (IH _ _ n1 m1 T C') as (is2 & oenv2 & n2 & m2 & EP & K2 & SIM).
    exists (is ++ is2), oenv2, n2, m2. simpl. rewrite LO, EM, bind_len by congruence. rewrite EP.
    split; auto. split; [eapply keeps_trans; eauto|].
    intros mf env s d KF TE RE. simpl.
    destruct (lookups_types _ _ _ _ TE L) as (vs & LV & TV'). rewrite LV.
    destruct (emit_ok_op o ts us vs xs n m SG TV' TO ST LX)
      as (is' & ys' & n1' & m1' & EM' & _ & _ & _ & _ & CO).
    rewrite EM in EM'. injection EM' as <- <- <- <-.
    destruct (CO mf s d) as [(ws & d' & s' & MN & TW & EX & KR & EY)|(d' & MN & EX)].
    + eapply keeps_trans; eauto.
    + eapply lookups_reps; eauto.
    + rewrite MN. rewrite bind_len by (rewrite LU, <- TW; now rewrite map_length).
      assert (TE' : types_of (combine outs ws ++ env) (combine outs us ++ G)).
      { intros w. rewrite !lookup_app, <- TW, lookup_combine_map.
        destruct (lookup (combine outs ws) w); simpl; auto. }
      assert (RE' : reps mf s' (combine outs ws ++ env) (combine outs ys ++ oenv)).
      { intros w v Q. rewrite lookup_app in *. destruct (lookup (combine outs ws) w) as [v'|] eqn:E.
        - injection Q as ->. destruct (combine_reps _ _ _ _ _ _ _ EY E) as (a & -> & A). eauto.
        - rewrite (combine_none _ _ _ _ ys _) with (2 := E).
          + destruct (RE _ _ Q) as (a & A & V). exists a. split; auto.
            destruct (C w (ty_of v)) as (a' & A' & S); [now rewrite TE, Q|].
            rewrite A in A'. injection A' as <-. rewrite <- V. eapply eval_stable; eauto.
          + rewrite LY, <- TW. now rewrite map_length. }
      specialize (SIM mf (combine outs ws ++ env) s' d' KF TE' RE').
      unfold simulated in *. rewrite exec_app, EX. exact SIM.
    + rewrite MN. simpl. rewrite exec_app, EX. reflexivity.
Qed.
End Refine.
