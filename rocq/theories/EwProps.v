(** Properties C60, C61: empty wires, and the ECC rewriter from its classes to the rewritten circuit. *)
From Coq Require Import List Bool Arith Lia ZArith Ring_theory Permutation Sorted.
From Verif Require Import PatSpec PatModel PatProofs PatRewrite PatMatch PatInterp PatCheck PatExamples EccModel EwModel EwSpec EwProofs EwSim EwReduce EwRewriter EwMain.
Import ListNotations.

(** ** C60 *)

(** The empty wires are, in order, the inputs that no node uses and that are at most once an output; removing any of them,
    given in order, does not panic and gives the circuit without them: the other inputs and outputs keep their order, and the nodes their values. If all
    are removed, none is empty afterwards. *)
Theorem C60_removed : forall ain aout lin (c : circuit optype) l, schedule ain aout lin c l ->
  (forall k, In k (empty_wires ain c) <-> idle ain c k) /\ StronglySorted lt (empty_wires ain c) /\
  forall ws, StronglySorted lt ws -> incl ws (empty_wires ain c) ->
  exists d, remove_wires ain c ws = Some d /\ without_wires ain ws c d /\ (incl (empty_wires ain c) ws -> empty_wires ain d = []).
Proof. exact C60_removed_pf. Qed.

(** Removing one wire fails exactly if there is no such input, or it is not empty; if the number is that of the inputs, with a panic. *)
Theorem C60_error : forall ain aout lin (c : circuit optype) l k, schedule ain aout lin c l ->
  match remove_empty_wire ain c k with
  | inl d => idle ain c k /\ without_wires ain [k] c d
  | inr InvalidPortOffset => c_inputs c < k
  | inr OutOfBounds => k = c_inputs c
  | inr DeleteNonEmptyWire => k < c_inputs c /\ ~ idle ain c k
  end.
Proof. exact C60_error_pf. Qed.

(** Circuits of gates that compute the same are valid, have the same typing and compute the same without wires
    that are empty in both: in particular, the wires lead to the same outputs. [d0] and [d1]: there are at least two classical values. *)
Theorem C60_meaning : forall ain aout lin R r0 r1 radd rmul rsub ropp (Rth : ring_theory r0 r1 radd rmul rsub ropp (@eq R)) P (d0 d1 : P) matrix qout cout qout_inj,
  let I := gates optype ain aout lin R r0 r1 radd rmul rsub ropp Rth P d0 matrix qout cout qout_inj in let lout := lout optype ain lin qout in
  d0 <> d1 -> forall c t lc lt' fi fo ws, schedule ain aout lin c lc -> schedule ain aout lin t lt' -> linear_typed ain lin lout c fi fo -> linear_typed ain lin lout t fi fo ->
  equivalent I fi c t -> StronglySorted lt ws -> (forall k, In k ws -> idle ain c k /\ idle ain t k) ->
  exists c' t' fi' fo', remove_wires ain c ws = Some c' /\ remove_wires ain t ws = Some t' /\
    (exists l, schedule ain aout lin c' l) /\ (exists l, schedule ain aout lin t' l) /\ linear_typed ain lin lout c' fi' fo' /\ linear_typed ain lin lout t' fi' fo' /\ equivalent I fi' c' t'.
Proof. exact C60_meaning_pf. Qed.

(** ** C61 *)

(** Circuits of gates that compute the same can replace each other in every place, if the first has no empty wire. *)
Theorem C61_everywhere : forall ain aout lin R r0 r1 radd rmul rsub ropp (Rth : ring_theory r0 r1 radd rmul rsub ropp (@eq R)) P (d0 : P) matrix qout cout qout_inj,
  let I := gates optype ain aout lin R r0 r1 radd rmul rsub ropp Rth P d0 matrix qout cout qout_inj in
  forall c d fi fo, linear_typed ain lin (lout optype ain lin qout) c fi fo -> (forall k, ~ idle ain c k) -> equivalent I fi c d -> interchangeable I fi c d.
Proof. exact C61_everywhere_pf. Qed.

(** The rewriter made from any classes of valid circuits of gates, without containers, that compute the same: the replacement of
    any match in any valid circuit by any target does not panic, and gives a valid, well typed circuit that computes the same. *)
Theorem C61_rewrite_partial : forall ain aout lin R r0 r1 radd rmul rsub ropp (Rth : ring_theory r0 r1 radd rmul rsub ropp (@eq R)) P (d0 d1 : P) matrix qout cout qout_inj typed commands es,
  let I := gates optype ain aout lin R r0 r1 radd rmul rsub ropp Rth P d0 matrix qout cout qout_inj in let lout := lout optype ain lin qout in
  d0 <> d1 -> (forall c, Permutation (commands c) (c_nodes c)) -> (forall e, In e es -> sound_class ain aout lin R r0 r1 radd rmul rsub ropp Rth P d0 matrix qout cout qout_inj e) ->
  exists w, from_classes ain lin typed commands es = Some w /\
  forall c l fi fo i ts t m off, schedule ain aout lin c l -> linear_typed ain lin lout c fi fo -> matches ain w c i m off -> get_targets _ _ w i = Some ts -> In t ts ->
  exists d, get_rewrite ain w c i t m off = inl d /\ linear_typed ain lin lout d fi fo /\ (exists k, schedule ain aout lin d k) /\ equivalent I fi c d.
Proof. exact C61_rewrite_partial_pf. Qed.

(** So does any sequence of such rewrites. *)
Theorem C61_rewritten_partial : forall ain aout lin R r0 r1 radd rmul rsub ropp (Rth : ring_theory r0 r1 radd rmul rsub ropp (@eq R)) P (d0 d1 : P) matrix qout cout qout_inj typed commands es w,
  let I := gates optype ain aout lin R r0 r1 radd rmul rsub ropp Rth P d0 matrix qout cout qout_inj in let lout := lout optype ain lin qout in
  d0 <> d1 -> (forall c, Permutation (commands c) (c_nodes c)) -> (forall e, In e es -> sound_class ain aout lin R r0 r1 radd rmul rsub ropp Rth P d0 matrix qout cout qout_inj e) ->
  from_classes ain lin typed commands es = Some w ->
  forall c l fi fo d, schedule ain aout lin c l -> linear_typed ain lin lout c fi fo -> ecc_rewritten ain w c d ->
  linear_typed ain lin lout d fi fo /\ (exists k, schedule ain aout lin d k) /\ equivalent I fi c d.
Proof. exact C61_rewritten_partial_pf. Qed.

(** ** Instances *)

(** Two X gates beside an idle qubit, and two idle qubits: they compute the same, and their class gives a rewriter of one rule, which
    removes two X gates from a circuit of four gates. *)
Definition xx_idle : circuit optype := {| c_inputs := 2; c_nodes := [(0, X); (1, X)]; c_src := fun n _ => match n with 0 => Inp 0 | _ => Out 0 0 end; c_outs := [Out 1 0; Inp 1] |}.
Definition two_idle : circuit optype := {| c_inputs := 2; c_nodes := []; c_src := fun _ _ => Inp 0; c_outs := [Inp 0; Inp 1] |}.
Example idle_typed : linear_typed xin xlin xlout xx_idle [true; true] [true; true] /\ linear_typed xin xlin xlout two_idle [true; true] [true; true].
Proof. split; apply typed_ok; vm_compute; reflexivity. Qed.
Example idle_valid : schedule xin xout xlin xx_idle (c_nodes xx_idle) /\ schedule xin xout xlin two_idle [].
Proof. destruct idle_typed. split; (eapply valid_ok; [vm_compute; reflexivity|eassumption]). Qed.
Example idle_equivalent : equivalent xgates [true; true] two_idle xx_idle.
Proof.
  split; [reflexivity|]. split; [reflexivity|]. intros m l t s Hm Hl (L1 & L2 & L3) Ht. destruct Hm as [Pm _ _ _ _]. cbn [c_nodes two_idle] in Pm. apply Permutation_nil in Pm. subst m.
  assert (l = c_nodes xx_idle) as ->. { destruct Hl as [Pl _ O _ _]. apply two_orders in Pl. destruct Pl as [ -> | -> ]; auto. exfalso. destruct (O [] (1, X) [(0, X)] eq_refl (Out 0 0)) as [(k & E & _)|(y & [] & _)]; [now left|discriminate]. }
  cbn [c_nodes xx_idle map run fold_left c_outs two_idle combine]. change (action_of xin xout xx_idle (0, X)) with {| a_op := X; a_ins := [Inp 0]; a_outs := [Out 0 0] |}. change (action_of xin xout xx_idle (1, X)) with {| a_op := X; a_ins := [Out 0 0]; a_outs := [Out 1 0] |}.
  assert (T0 := Ht 0 (le_S _ _ (le_n 1))). cbn [nth kind xgates gates] in T0. unfold gkind in T0. destruct (xholds t (Inp 0)) as [n|] eqn:Hn; [|discriminate].
  assert (Hs : xholds s (Inp 0) = Qubit nat n) by (rewrite <- (L1 (Inp 0) (Inp 0)); auto; now left).
  set (s1 := xact {| a_op := X; a_ins := [Inp 0]; a_outs := [Out 0 0] |} s). set (s2 := xact {| a_op := X; a_ins := [Out 0 0]; a_outs := [Out 1 0] |} s1).
  assert (H1 : xholds s1 (Out 0 0) = Qubit nat n) by (unfold s1; rewrite x_holds; cbn; auto).
  assert (H2 : xholds s2 (Out 1 0) = Qubit nat n) by (unfold s2; rewrite x_holds; cbn; auto).
  assert (H3 : xholds s2 (Inp 1) = xholds t (Inp 1)) by (unfold s2, s1; rewrite !x_holds; cbn; symmetry; apply L1; right; now left).
  split; [|split].
  - intros w w' [[= <- <-]|[[= <- <-]|[]]]; [change (xholds t (Inp 0) = xholds s2 (Out 1 0)); congruence|symmetry; exact H3].
  - intros u u' w w' k [[= <- <-]|[[= <- <-]|[]]] [[= <- <-]|[[= <- <-]|[]]] Q1 Q2; auto; exfalso; [destruct (L2 (Inp 0) (Inp 0) (Inp 1) (Inp 1) k)|destruct (L2 (Inp 1) (Inp 1) (Inp 0) (Inp 0) k)]; auto; try discriminate; cbn; auto.
  - intros b. change (xamp t b = xamp s2 b). unfold s2. rewrite (x_amp _ _ _ n) by auto. unfold s1. rewrite (x_amp _ _ _ n) by auto. rewrite L3. symmetry. apply amp_ext. intros k. cbn [write]. rewrite Nat.eqb_refl, negb_involutive. destruct (Nat.eqb_spec k n) as [->|]; auto.
Qed.
Definition idle_class : eqclass (circuit optype) := {| rep_circ := two_idle; other_circs := [xx_idle] |}.
Example idle_sound : sound_class xin xout xlin Z 0%Z 1%Z Z.add Z.mul Z.sub Z.opp InitialRing.Zth nat 0 xmatrix xqout xcout xqout_inj idle_class.
Proof.
  exists [true; true], [true; true]. destruct idle_typed, idle_valid. split.
  - intros c [<-|[<-|[]]]; (split; [eauto|]; split; [auto|]); intros k a b e Hin; cbn in Hin; repeat (destruct Hin as [Hin|Hin]; [discriminate|]); auto.
  - intros c [<-|[]]. apply idle_equivalent.
Qed.
Definition xhost : circuit optype := {| c_inputs := 2; c_nodes := [(0, CX); (1, X); (2, X); (3, CX)];
  c_src := fun n k => match n, k with 0, k => Inp k | 1, _ => Out 0 0 | 2, _ => Out 1 0 | _, 0 => Out 2 0 | _, _ => Out 0 1 end; c_outs := [Out 3 0; Out 3 1] |}.
Example idle_wires : empty_wires xin xx_idle = [1] /\ empty_wires xin two_idle = [0; 1].
Proof. vm_compute. auto. Qed.
Example idle_rewrites : exists w ts m d, from_classes xin xlin (fun _ _ => true) (fun c => c_nodes c) [idle_class] = Some w /\ length (rows _ _ w) = 1 /\ get_targets _ _ w 0 = Some ts /\ ts = [two_idle] /\
  matches xin w xhost 0 m 4 /\ get_rewrite xin w xhost 0 two_idle m 4 = inl d /\ c_nodes d = [(0, CX); (3, CX)] /\ map (c_src d 3) [0; 1] = [Out 0 0; Out 0 1].
Proof.
  destruct (from_classes xin xlin (fun _ _ => true) (fun c => c_nodes c) [idle_class]) as [w|] eqn:Ew; [|exfalso; vm_compute in Ew; discriminate].
  let v := eval vm_compute in (from_classes xin xlin (fun _ _ => true) (fun c => c_nodes c) [idle_class]) in match v with Some ?v => assert (E : w = v) by (apply (f_equal (fun o => match o with Some x => x | None => w end)) in Ew; rewrite <- Ew; vm_compute; reflexivity) end.
  exists w, [two_idle]. destruct (nth_error (rows _ _ w) 0) as [[[[pc p] ws] r]|] eqn:Er; [|exfalso; rewrite E in Er; vm_compute in Er; discriminate].
  destruct (get_match_map xin p (p_order p) xhost 1) as [m|] eqn:Em; [|exfalso; rewrite E in Er; vm_compute in Er; injection Er as <- <- <- <-; vm_compute in Em; discriminate].
  destruct (get_rewrite xin w xhost 0 two_idle m 4) as [d|u] eqn:Eg; [|exfalso; rewrite E in Er, Eg; vm_compute in Er; injection Er as <- <- <- <-; vm_compute in Em; injection Em as <-; vm_compute in Eg; discriminate].
  exists m, d. split; [auto|]. split; [rewrite E; reflexivity|]. split; [rewrite E; reflexivity|]. split; [reflexivity|]. split; [|split; [exact Eg|]].
  - exists pc, p, ws, r, (p_order p), 1. split; [exact Er|]. rewrite E in Er. vm_compute in Er. injection Er as <- <- <- <-. split; [|split; [exact Em|split; [|intros x Hx; cbn in Hx; repeat (destruct Hx as [<-|Hx]; [cbn; lia|]); destruct Hx]]].
    + intros e He. vm_compute in He. destruct He as [<-|[<-|[]]]; [left|right; eexists; split; [reflexivity|]]; vm_compute; auto.
    + vm_compute in Em. injection Em as <-. vm_compute. reflexivity.
  - rewrite E in Er, Eg. vm_compute in Er. injection Er as <- <- <- <-. vm_compute in Em. injection Em as <-. vm_compute in Eg. injection Eg as <-. vm_compute. auto.
Qed.
Example C61_instance : forall w d, from_classes xin xlin (fun _ _ => true) (fun c => c_nodes c) [idle_class] = Some w -> ecc_rewritten xin w xhost d -> equivalent xgates [true; true] xhost d.
Proof.
  intros w d Ew H. assert (T : linear_typed xin xlin xlout xhost [true; true] [true; true]) by (apply typed_ok; vm_compute; reflexivity).
  assert (V : schedule xin xout xlin xhost (c_nodes xhost)) by (eapply valid_ok; [vm_compute; reflexivity|exact T]).
  apply (C61_rewritten_partial xin xout xlin Z 0%Z 1%Z Z.add Z.mul Z.sub Z.opp InitialRing.Zth nat 0 1 xmatrix xqout xcout xqout_inj (fun _ _ => true) (fun c => c_nodes c) [idle_class] w) with (l := c_nodes xhost) (fo := [true; true]); auto.
  intros e [<-|[]]. apply idle_sound.
Qed.

Print Assumptions C60_removed.
Print Assumptions C60_error.
Print Assumptions C60_meaning.
Print Assumptions C61_everywhere.
Print Assumptions C61_rewrite_partial.
Print Assumptions C61_rewritten_partial.
