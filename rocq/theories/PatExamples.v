(** Concrete operations and circuits for the theorems about pattern matching. *)
From Coq Require Import List Bool Arith Lia ZArith Permutation InitialRing.
From Verif Require Import PatSpec PatModel PatProofs PatRewrite PatMatch PatInterp.
Import ListNotations.

(** Operations: the gate X, a gate of two qubits, classical operations of one and two inputs, constants and
    their loading; every container is a function of one classical value. *)
Definition X := ExtOp 0 0 [].
Definition CX := ExtOp 0 1 [].
Definition Copy := ExtOp 1 0 [].
Definition Add := ExtOp 1 1 [].
Definition Box (body : nat) := ContainerOp 0 0 body.
Definition Const (v : nat) := OtherOp 0 v.
Definition Load := OtherOp 1 0.
Definition xin (o : optype) : nat := match o with ExtOp 0 0 _ => 1 | ExtOp 0 _ _ => 2 | ExtOp _ 0 _ => 1 | ExtOp _ _ _ => 2 | ContainerOp _ _ _ => 1 | OtherOp 0 _ => 0 | OtherOp _ _ => 1 end.
Definition xout (o : optype) : nat := match o with ExtOp 0 0 _ => 1 | ExtOp 0 _ _ => 2 | _ => 1 end.
Definition xlin (o : optype) (k : nat) : bool := match o with ExtOp 0 _ _ => true | _ => false end.
Definition xqout (o : optype) (j : nat) : option nat := match o with ExtOp 0 _ _ => Some j | _ => None end.
Definition xcout (o : optype) (ps : list nat) (j : nat) : nat :=
  match o, ps with
  | ContainerOp _ _ b, _ => b
  | OtherOp 0 v, _ => v
  | _, [] => 0
  | _, v :: ps => fold_left Nat.add ps v
  end.
Definition bit (b : bool) : Z := if b then 1%Z else 0%Z.
Definition xmatrix (o : optype) (ps : list nat) (row col : list bool) : Z :=
  match o, row, col with
  | ExtOp 0 0 _, [a], [b] => bit (xorb a b)
  | ExtOp 0 _ _, [a; a'], [b; b'] => bit (Bool.eqb a b && Bool.eqb a' (xorb b b'))
  | _, [], [] => 1%Z
  | _, _, _ => 0%Z
  end.
Lemma xqout_inj o j j' k : xqout o j = Some k -> xqout o j' = Some k -> j = j'.
Proof. unfold xqout. destruct o as [[|?] ? ?| |]; congruence. Qed.
Notation xlout := (lout optype xin xlin xqout).
Definition xgates : interp optype xin xout xlin xlout := gates optype xin xout xlin Z 0%Z 1%Z Z.add Z.mul Z.sub Z.opp Zth nat 0 xmatrix xqout xcout xqout_inj.

(** A line of operations of one value. *)
Definition line (os : list optype) : circuit optype :=
  {| c_inputs := 1; c_nodes := combine (seq 0 (length os)) os; c_src := fun n _ => match n with 0 => Inp 0 | S n => Out n 0 end; c_outs := [match length os with 0 => Inp 0 | S n => Out n 0 end] |}.
Definition fixed (c : circuit optype) : Prop := forall m, schedule xin xout xlin c m -> m = c_nodes c.
Lemma two_orders {A} (a b : A) m : Permutation [a; b] m -> m = [a; b] \/ m = [b; a].
Proof.
  intros P. assert (L := Permutation_length P). destruct m as [|x [|y [|? ?]]]; try discriminate. assert (Hx : In x [a; b]) by (eapply Permutation_in; [apply Permutation_sym; exact P|now left]).
  destruct Hx as [<-|[<-|[]]]; [left|right]; [apply Permutation_cons_inv in P|apply perm_trans with (l := [b; a]) in P; [|constructor]; apply Permutation_cons_inv in P]; apply Permutation_length_1 in P; subst; reflexivity.
Qed.
Lemma fixed_0 : fixed (line []).
Proof. intros m [P _ _ _ _]. apply Permutation_nil in P. auto. Qed.
Lemma fixed_1 o : fixed (line [o]).
Proof. intros m [P _ _ _ _]. apply Permutation_length_1_inv in P. auto. Qed.
Lemma fixed_2 o o' : 1 <= xin o' -> fixed (line [o; o']).
Proof.
  intros H m [P _ O _ _]. apply two_orders in P. destruct P as [ -> | -> ]; auto. exfalso. destruct (O [] (1, o') [(0, o)] eq_refl (Out 0 0)) as [(k & E & _)|(y & [] & _)]; [|discriminate].
  unfold ins. cbn [fst snd]. destruct (xin o'); [lia|]. now left.
Qed.
Lemma line_schedule os : (forall o, In o os -> xin o = 1 /\ xout o = 1) -> schedule xin xout xlin (line os) (c_nodes (line os)).
Proof.
  intros H. assert (Nth : forall x, In x (c_nodes (line os)) -> fst x < length os /\ In (snd x) os) by (intros [n o] Hx; split; [apply in_combine_l in Hx; apply in_seq in Hx; cbn; lia|apply in_combine_r in Hx; auto]).
  assert (Fst : map fst (c_nodes (line os)) = seq 0 (length os)). { cbn [c_nodes line]. generalize 0. clear. induction os as [|o os IH]; intros b; cbn [length seq combine map fst]; auto. rewrite IH. auto. }
  assert (Use : uses xin (line os) (c_nodes (line os)) = Inp 0 :: map (fun n => Out n 0) (seq 0 (length os))).
  { unfold uses. cbn [c_nodes line c_outs].
    assert (G : forall l b, (forall o, In o l -> xin o = 1 /\ xout o = 1) -> flat_map (ins xin (line os)) (combine (seq b (length l)) l) = map (fun n => match n with 0 => Inp 0 | S n => Out n 0 end) (seq b (length l))).
    { induction l as [|o l IH]; intros b Hl; cbn [length seq combine flat_map map]; auto. rewrite IH by (intros; apply Hl; now right). unfold ins at 1. cbn [fst snd]. rewrite (proj1 (Hl o (or_introl eq_refl))). reflexivity. }
    rewrite G by auto. clear. destruct (length os) as [|n]; auto. rewrite <- cons_seq. cbn [map app]. f_equal. rewrite <- seq_shift, map_map. change [Out n 0] with (map (fun n => Out n 0) [n]). rewrite <- map_app. f_equal. change (Out 0 0 :: map (fun n0 => Out n0 0) (map S (seq 0 n))) with (map (fun n0 => Out n0 0) (0 :: map S (seq 0 n))). f_equal. rewrite seq_shift, cons_seq, seq_S. reflexivity. }
  constructor.
  - apply Permutation_refl.
  - rewrite Fst. apply seq_NoDup.
  - intros a x b E w Hw. assert (Hx : In x (c_nodes (line os))) by (rewrite E; apply in_or_app; right; now left). destruct (Nth x Hx) as [L1 L2]. unfold ins in Hw. rewrite (proj1 (H _ L2)) in Hw. cbn [seq map c_src line] in Hw. destruct Hw as [<-|[]].
    assert (Fx : fst x = length a). { assert (E' : nth_error (map fst (c_nodes (line os))) (length a) = Some (fst x)) by (rewrite E, map_app, nth_error_app2; rewrite map_length; [rewrite Nat.sub_diag; reflexivity|lia]). rewrite Fst in E'. assert (L : length a < length os) by (rewrite <- (seq_length (length os) 0); apply nth_error_Some; congruence). apply nth_error_nth with (d := 0) in E'. rewrite seq_nth in E' by auto. auto. }
    rewrite Fx. destruct (length a) as [|n] eqn:La; [left; exists 0; cbn; auto|]. right. destruct (nth_error a n) as [y|] eqn:Ny; [|apply nth_error_None in Ny; lia]. exists y. split; [eapply nth_error_In; eauto|].
    assert (Hy : nth_error (c_nodes (line os)) n = Some y) by (rewrite E, nth_error_app1; auto; lia). assert (Ey : fst y = n). { assert (E' : nth_error (map fst (c_nodes (line os))) n = Some (fst y)) by (apply map_nth_error; auto). rewrite Fst in E'. assert (L : n < length os) by lia. apply nth_error_nth with (d := 0) in E'. rewrite seq_nth in E' by auto. auto. }
    destruct (Nth y) as [_ L3]; [eapply nth_error_In; eauto|]. unfold outs. rewrite (proj2 (H _ L3)), Ey. now left.
  - intros w [<-|[]]. destruct (length os) as [|n] eqn:Lo; [left; exists 0; cbn; auto|]. right. destruct (nth_error (c_nodes (line os)) n) as [y|] eqn:Ny; [|apply nth_error_None in Ny; cbn [c_nodes line] in Ny; rewrite combine_length, seq_length in Ny; lia].
    exists y. split; [eapply nth_error_In; eauto|]. destruct (Nth y) as [_ L3]; [eapply nth_error_In; eauto|]. assert (E' : nth_error (map fst (c_nodes (line os))) n = Some (fst y)) by (apply map_nth_error; auto). rewrite Fst in E'. apply nth_error_nth with (d := 0) in E'. rewrite seq_nth in E' by lia. unfold outs. rewrite (proj2 (H _ L3)). cbn in E'. rewrite <- E'. now left.
  - intros x w Hx Hw a b E. assert (N : NoDup (uses xin (line os) (c_nodes (line os)))).
    { rewrite Use. constructor; [intros Hi; apply in_map_iff in Hi; destruct Hi as (? & ? & _); discriminate|]. apply FinFun.Injective_map_NoDup; [intros ? ? [=]; auto|apply seq_NoDup]. }
    rewrite E in N. apply NoDup_remove_2 in N. split; intros Hi; apply N; apply in_or_app; auto.
Qed.

(** ** Rules: two X gates cancel, and a copy in front of a container can be removed. *)
Notation xact := (gact optype xlin Z 0%Z Z.add Z.mul nat 0 xmatrix xqout xcout).
Notation xholds := (holds Z nat).
Notation xamp := (amp Z nat).
Lemma step_holds o u v s w : xout o = 1 -> xholds (xact {| a_op := o; a_ins := u; a_outs := [v] |} s) w =
  if source_eq_dec w v then match xqout o 0 with Some k => nth k (map (xholds s) (a_linear xlin {| a_op := o; a_ins := u; a_outs := [v] |})) (Bits nat 0) | None => Bits nat (xcout o (params optype xlin nat 0 {| a_op := o; a_ins := u; a_outs := [v] |} (xholds s)) 0) end else xholds s w.
Proof. intros _. cbn [holds gact]. unfold holds_after. cbn [a_outs position a_op]. destruct (source_eq_dec w v); reflexivity. Qed.
Lemma x_holds u v s w : xholds (xact {| a_op := X; a_ins := [u]; a_outs := [v] |} s) w = if source_eq_dec w v then xholds s u else xholds s w.
Proof. rewrite step_holds by reflexivity. destruct (source_eq_dec w v); reflexivity. Qed.
Lemma x_amp u v s n b : xholds s u = Qubit nat n -> xamp (xact {| a_op := X; a_ins := [u]; a_outs := [v] |} s) b = xamp s (write b [n] [negb (b n)]).
Proof.
  intros H. cbn [amp gact]. unfold amp_after. cbn [a_linear a_op a_ins length seq combine filter xlin X fst map snd]. rewrite H. cbn [names option_map apply_gate]. unfold apply_gate. cbn [length strings map app sum xmatrix X]. destruct (b n); cbn [bit xorb negb]; ring.
Qed.
Lemma xx_cancel : interchangeable xgates [true] (line [X; X]) (line []).
Proof.
  split; [reflexivity|]. split; [reflexivity|]. intros l m f g C s t Hl Hm L Hi Ht _ Hf _ If _.
  rewrite (fixed_2 X X (le_n 1) l Hl) in *. rewrite (fixed_0 m Hm) in *. cbn [c_nodes line length seq combine map run fold_left].
  change (rename f (action_of xin xout (line [X; X]) (0, X))) with {| a_op := X; a_ins := [f (Inp 0)]; a_outs := [f (Out 0 0)] |}.
  change (rename f (action_of xin xout (line [X; X]) (1, X))) with {| a_op := X; a_ins := [f (Out 0 0)]; a_outs := [f (Out 1 0)] |}.
  change (map f (linear_inputs xin xlin (line [X; X]) [(0, X); (1, X)])) with [f (Inp 0)]. cbn [c_outs line length map combine].
  assert (Hin : In (f (Inp 0), g (Inp 0)) C) by (apply Hi; cbn; auto). assert (Hk := Ht 0 (le_n 1)). cbn [nth] in Hk. cbn [kind xgates gates gkind] in Hk. unfold gkind in Hk. destruct L as (L1 & L2 & L3).
  destruct (xholds s (f (Inp 0))) as [n|] eqn:Hn; [|discriminate].
  assert (F0 : ~ In (f (Out 0 0)) (map fst C)) by (apply (Hf (0, X)); now left). assert (F1 : ~ In (f (Out 1 0)) (map fst C)) by (apply (Hf (1, X)); [right|]; now left).
  assert (N01 : f (Out 0 0) <> f (Out 1 0)) by (intros E; destruct (If 0 0 1 0 E); [now left|right; now left|discriminate]).
  set (s1 := xact {| a_op := X; a_ins := [f (Inp 0)]; a_outs := [f (Out 0 0)] |} s). set (s2 := xact {| a_op := X; a_ins := [f (Out 0 0)]; a_outs := [f (Out 1 0)] |} s1).
  assert (Old : forall w w', In (w, w') C -> xholds s2 w = xholds s w).
  { intros w w' H. apply (in_map fst) in H. cbn [fst] in H. unfold s2, s1. rewrite !x_holds. destruct (source_eq_dec w (f (Out 1 0))) as [->|]; [contradiction|]. destruct (source_eq_dec w (f (Out 0 0))) as [->|]; [contradiction|]. reflexivity. }
  assert (H1 : xholds s1 (f (Out 0 0)) = Qubit nat n) by (unfold s1; rewrite x_holds; destruct (source_eq_dec (f (Out 0 0)) (f (Out 0 0))); congruence).
  assert (New : xholds s2 (f (Out 1 0)) = Qubit nat n) by (unfold s2; rewrite x_holds; destruct (source_eq_dec (f (Out 1 0)) (f (Out 1 0))); congruence).
  assert (Hn' : xholds t (g (Inp 0)) = Qubit nat n) by (rewrite <- (L1 _ _ Hin); auto).
  assert (Cw : forall w w', In (w, w') (without [f (Inp 0)] C) -> In (w, w') C /\ w <> f (Inp 0)). { intros w w' H. apply (without_in [f (Inp 0)] C (w, w')) in H. cbn [fst In] in H. split; [tauto|]. intros ->. tauto. }
  split; [|split].
  - intros w w' H. change (xholds s2 w = xholds t w'). apply in_app_or in H. destruct H as [H|[[= <- <-]|[]]]; [|congruence]. apply Cw in H. destruct H as [H _]. rewrite (Old w w'), (L1 w w'); auto.
  - intros u u' w w' k Hu Hw Q1 Q2. change (xholds s2 u = Qubit nat k) in Q1. change (xholds s2 w = Qubit nat k) in Q2. apply in_app_or in Hu, Hw. destruct Hu as [Hu|[[= <- <-]|[]]], Hw as [Hw|[[= <- <-]|[]]].
    + apply Cw in Hu, Hw. destruct Hu as [Hu _], Hw as [Hw _]. rewrite (Old _ _ Hu) in Q1. rewrite (Old _ _ Hw) in Q2. eauto.
    + exfalso. apply Cw in Hu. destruct Hu as [Hu Ne]. rewrite (Old _ _ Hu) in Q1. rewrite New in Q2. injection Q2 as <-. destruct (L2 _ _ _ _ n Hu Hin Q1 Hn). auto.
    + exfalso. apply Cw in Hw. destruct Hw as [Hw Ne]. rewrite (Old _ _ Hw) in Q2. rewrite New in Q1. injection Q1 as <-. destruct (L2 _ _ _ _ n Hw Hin Q2 Hn). auto.
    + auto.
  - intros b. change (xamp s2 b = xamp t b). unfold s2. rewrite (x_amp _ _ _ n) by auto. unfold s1. rewrite (x_amp _ _ _ n) by auto. rewrite <- L3. apply amp_ext. intros k. cbn [write]. rewrite Nat.eqb_refl, negb_involutive. destruct (Nat.eqb_spec k n) as [->|]; auto.
Qed.
Lemma box_holds v u w s z : xholds (xact {| a_op := Box v; a_ins := [u]; a_outs := [w] |} s) z = if source_eq_dec z w then Bits nat v else xholds s z.
Proof. rewrite step_holds by reflexivity. destruct (source_eq_dec z w); reflexivity. Qed.
Lemma copy_holds u w s z : xholds (xact {| a_op := Copy; a_ins := [u]; a_outs := [w] |} s) z = if source_eq_dec z w then Bits nat (classical nat 0 (xholds s u)) else xholds s z.
Proof. rewrite step_holds by reflexivity. destruct (source_eq_dec z w); reflexivity. Qed.
Lemma box_amp v u w s b : xamp (xact {| a_op := Box v; a_ins := [u]; a_outs := [w] |} s) b = xamp s b.
Proof. cbn [amp gact]. unfold amp_after. cbn [a_linear a_op a_ins length seq combine filter xlin Box fst map snd names]. unfold apply_gate. cbn [length strings sum map Box xmatrix write]. ring. Qed.
Lemma copy_amp u w s b : xamp (xact {| a_op := Copy; a_ins := [u]; a_outs := [w] |} s) b = xamp s b.
Proof. cbn [amp gact]. unfold amp_after. cbn [a_linear a_op a_ins length seq combine filter xlin Copy fst map snd names]. unfold apply_gate. cbn [length strings sum map Copy xmatrix write]. ring. Qed.
Lemma copy_box : interchangeable xgates [false] (line [Copy; Box 1]) (line [Box 1]).
Proof.
  split; [reflexivity|]. split; [reflexivity|]. intros l m f g C s t Hl Hm L Hi Ht _ Hf Hg If _.
  rewrite (fixed_2 Copy (Box 1) (le_n 1) l Hl) in *. rewrite (fixed_1 (Box 1) m Hm) in *. cbn [c_nodes line length seq combine map run fold_left].
  change (rename f (action_of xin xout (line [Copy; Box 1]) (0, Copy))) with {| a_op := Copy; a_ins := [f (Inp 0)]; a_outs := [f (Out 0 0)] |}.
  change (rename f (action_of xin xout (line [Copy; Box 1]) (1, Box 1))) with {| a_op := Box 1; a_ins := [f (Out 0 0)]; a_outs := [f (Out 1 0)] |}.
  change (rename g (action_of xin xout (line [Box 1]) (0, Box 1))) with {| a_op := Box 1; a_ins := [g (Inp 0)]; a_outs := [g (Out 0 0)] |}.
  change (map f (linear_inputs xin xlin (line [Copy; Box 1]) [(0, Copy); (1, Box 1)])) with (@nil source). cbn [c_outs line length map combine]. destruct L as (L1 & L2 & L3).
  assert (F0 : ~ In (f (Out 0 0)) (map fst C)) by (apply (Hf (0, Copy)); now left). assert (F1 : ~ In (f (Out 1 0)) (map fst C)) by (apply (Hf (1, Box 1)); [right|]; now left).
  assert (G0 : ~ In (g (Out 0 0)) (map snd C)) by (apply (Hg (0, Box 1)); now left).
  set (s1 := xact {| a_op := Copy; a_ins := [f (Inp 0)]; a_outs := [f (Out 0 0)] |} s). set (s2 := xact {| a_op := Box 1; a_ins := [f (Out 0 0)]; a_outs := [f (Out 1 0)] |} s1). set (t1 := xact {| a_op := Box 1; a_ins := [g (Inp 0)]; a_outs := [g (Out 0 0)] |} t).
  assert (Old : forall w w', In (w, w') C -> xholds s2 w = xholds s w /\ xholds t1 w' = xholds t w').
  { intros w w' H. split; [apply (in_map fst) in H|apply (in_map snd) in H]; cbn [fst snd] in H.
    - unfold s2, s1. rewrite box_holds, copy_holds. destruct (source_eq_dec w (f (Out 1 0))) as [->|]; [contradiction|]. destruct (source_eq_dec w (f (Out 0 0))) as [->|]; [contradiction|]. reflexivity.
    - unfold t1. rewrite box_holds. destruct (source_eq_dec w' (g (Out 0 0))) as [->|]; [contradiction|]. reflexivity. }
  assert (New : xholds s2 (f (Out 1 0)) = Bits nat 1) by (unfold s2; rewrite box_holds; destruct (source_eq_dec (f (Out 1 0)) (f (Out 1 0))); congruence).
  assert (New' : xholds t1 (g (Out 0 0)) = Bits nat 1) by (unfold t1; rewrite box_holds; destruct (source_eq_dec (g (Out 0 0)) (g (Out 0 0))); congruence).
  assert (Cw : forall w w', In (w, w') (without [] C) -> In (w, w') C) by (intros w w' H; apply (without_in [] C (w, w')) in H; tauto).
  split; [|split].
  - intros w w' H. change (xholds s2 w = xholds t1 w'). apply in_app_or in H. destruct H as [H|[[= <- <-]|[]]]; [|congruence]. apply Cw in H. destruct (Old w w' H) as [-> ->]. auto.
  - intros u u' w w' k Hu Hw Q1 Q2. change (xholds s2 u = Qubit nat k) in Q1. change (xholds s2 w = Qubit nat k) in Q2. apply in_app_or in Hu, Hw. destruct Hu as [Hu|[[= <- <-]|[]]], Hw as [Hw|[[= <- <-]|[]]]; try congruence.
    apply Cw in Hu, Hw. rewrite (proj1 (Old _ _ Hu)) in Q1. rewrite (proj1 (Old _ _ Hw)) in Q2. eauto.
  - intros b. change (xamp s2 b = xamp t1 b). unfold s2, s1, t1. rewrite !box_amp, copy_amp. auto.
Qed.
(** A state whose input is a given classical value. *)
Definition start (v : nat) : state Z nat := {| holds := fun _ => Bits nat v; amp := fun _ => 1%Z; amp_ext := fun _ _ _ => eq_refl |}.
