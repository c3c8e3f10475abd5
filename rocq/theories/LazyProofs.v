(** Lemmas about lazy measurements. *)

From Coq Require Import List Arith Bool Lia.
From Verif Require Import LazyModel LazySpec.
Import ListNotations.

(** * Futures *)

Definition live (fs : futures) (h : nat) : nat :=
  match nth_error fs h with Some (_, true) => 1 | _ => 0 end.

(** Each handle among the wires is live, each live handle is there once. *)
Definition bal (fs : futures) (ws : list sumv) : Prop :=
  forall h, count_occ Nat.eq_dec (handles ws) h = live fs h.

Lemma live_alive fs h : live fs h = 1 <-> alive fs h.
Proof.
  unfold live, alive. destruct (nth_error fs h) as [[b [|]]|]; split; try lia; eauto;
    intros (x & E); congruence.
Qed.

Lemma live_cases fs h : live fs h = 0 \/ live fs h = 1.
Proof. unfold live. destruct (nth_error fs h) as [[b [|]]|]; auto. Qed.

Lemma bal_owns fs ws : bal fs ws <-> owns fs ws.
Proof.
  unfold bal, owns. split.
  - intros B. split.
    + apply (NoDup_count_occ Nat.eq_dec). intros h. rewrite B. destruct (live_cases fs h); lia.
    + intros h. rewrite <- live_alive, <- B. rewrite (count_occ_In Nat.eq_dec).
      specialize (B h). destruct (live_cases fs h); lia.
  - intros [N A] h. destruct (live_cases fs h) as [E|E]; rewrite E.
    + apply count_occ_not_In. rewrite A, <- live_alive. lia.
    + apply live_alive in E. apply A in E.
      pose proof (proj1 (NoDup_count_occ Nat.eq_dec _) N h).
      apply (count_occ_In Nat.eq_dec) in E. lia.
Qed.

Lemma kill_nth : forall fs h h',
  nth_error (kill fs h) h' =
  if h' =? h then option_map (fun p => (fst p, false)) (nth_error fs h') else nth_error fs h'.
Proof.
  induction fs as [|[b a] fs IH]; intros [|h] [|h']; simpl; auto.
  destruct (h' =? h); auto.
Qed.

Lemma kill_length : forall fs h, length (kill fs h) = length fs.
Proof. induction fs as [|[b a] fs IH]; intros [|h]; simpl; auto. Qed.

(** Outcomes never change. *)
Definition ext (fs fs' : futures) : Prop :=
  forall h b a, nth_error fs h = Some (b, a) -> exists a', nth_error fs' h = Some (b, a').

Lemma ext_refl fs : ext fs fs.
Proof. intros h b a E. eauto. Qed.

Lemma ext_trans a b c : ext a b -> ext b c -> ext a c.
Proof. intros X Y h v s E. apply X in E as (s' & E). eapply Y; eauto. Qed.

Lemma ext_kill fs h : ext fs (kill fs h).
Proof.
  intros h' b a E. rewrite kill_nth. destruct (h' =? h); rewrite E; simpl; eauto.
Qed.

Lemma ext_app fs l : ext fs (fs ++ l).
Proof.
  intros h b a E. rewrite nth_error_app1; eauto. apply nth_error_Some. congruence.
Qed.

Lemma stands_ext fs fs' w b : ext fs fs' -> stands_for fs w b -> stands_for fs' w b.
Proof.
  intros X. destruct w; simpl; auto. intros (a & E). eapply X; eauto.
Qed.

Lemma live_kill fs h h' : live (kill fs h) h' = if h' =? h then 0 else live fs h'.
Proof.
  unfold live. rewrite kill_nth. destruct (h' =? h); auto.
  destruct (nth_error fs h') as [[b a]|]; auto.
Qed.

Lemma live_app fs l h : live (fs ++ l) h = if h <? length fs then live fs h else live l (h - length fs).
Proof.
  unfold live. destruct (h <? length fs) eqn:E.
  - apply Nat.ltb_lt in E. rewrite nth_error_app1; auto.
  - apply Nat.ltb_ge in E. rewrite nth_error_app2; auto.
Qed.

Lemma live_over fs h : length fs <= h -> live fs h = 0.
Proof. intros L. unfold live. apply nth_error_None in L. rewrite L. auto. Qed.

Lemma handles_app a b : handles (a ++ b) = handles a ++ handles b.
Proof. unfold handles. apply flat_map_app. Qed.

Lemma bal_head fs h ws : bal fs (Later h :: ws) -> live fs h = 1.
Proof.
  intros B. specialize (B h). simpl in B. destruct (Nat.eq_dec h h); [|congruence].
  destruct (live_cases fs h); lia.
Qed.

Lemma live_some fs h : live fs h = 1 -> exists b, nth_error fs h = Some (b, true).
Proof. apply live_alive. Qed.

Lemma bal_kill fs h ws : bal fs (Later h :: ws) -> bal (kill fs h) ws.
Proof.
  intros B h'. rewrite live_kill. pose proof (bal_head _ _ _ B) as L.
  pose proof (B h') as E. simpl in E. destruct (Nat.eq_dec h h') as [->|N].
  - rewrite Nat.eqb_refl. lia.
  - destruct (h' =? h) eqn:X; [apply Nat.eqb_eq in X; congruence|]. auto.
Qed.

Lemma read_ok w fs ws b : bal fs (w :: ws) -> stands_for fs w b ->
  exists fs', read_builder w fs = Some (b, fs') /\ ext fs fs' /\ bal fs' ws.
Proof.
  intros B S. destruct w as [b'|h]; simpl in *.
  - subst. exists fs. split; auto. split; [apply ext_refl|]. exact B.
  - destruct S as (a & E). pose proof (bal_head _ _ _ B) as L. unfold live in L. rewrite E in L.
    destruct a; [|discriminate]. unfold future_read. rewrite E.
    exists (kill fs h). split; auto. split; [apply ext_kill|apply bal_kill; auto].
Qed.

Lemma discard_ok w fs ws : bal fs (w :: ws) ->
  exists fs', discard_sum w fs = Some fs' /\ ext fs fs' /\ bal fs' ws.
Proof.
  intros B. destruct w as [b'|h]; simpl in *.
  - exists fs. split; auto. split; [apply ext_refl|]. exact B.
  - pose proof (bal_head _ _ _ B) as L. apply live_some in L as (b & E). unfold future_free. rewrite E.
    exists (kill fs h). split; auto. split; [apply ext_kill|apply bal_kill; auto].
Qed.

Lemma copy_ok w fs ws b : bal fs (w :: ws) -> stands_for fs w b ->
  exists w1 w2 fs', copy_sum w fs = Some ((w1, w2), fs') /\ ext fs fs' /\
    stands_for fs' w1 b /\ stands_for fs' w2 b /\ bal fs' (w1 :: w2 :: ws).
Proof.
  intros B S. destruct w as [b'|h]; simpl in *.
  - exists (Now b'), (Now b'), fs. simpl. repeat split; auto. apply ext_refl.
  - destruct S as (a & E). pose proof (bal_head _ _ _ B) as L. unfold live in L. rewrite E in L.
    destruct a; [|discriminate]. unfold future_dup. rewrite E.
    eexists _, _, _. split; [reflexivity|].
    split; [eapply ext_trans; [apply ext_kill|apply ext_app]|].
    pose proof (kill_length fs h) as KL.
    split; [|split].
    + cbn [stands_for]. exists true. rewrite nth_error_app2 by lia. rewrite KL, Nat.sub_diag. auto.
    + cbn [stands_for]. exists true. rewrite nth_error_app2 by lia. rewrite KL.
      replace (S (length fs) - length fs) with 1 by lia. auto.
    + intros h'. apply bal_kill in B. pose proof (B h') as C. rewrite live_app, KL.
      destruct (h' <? length fs) eqn:X.
      * apply Nat.ltb_lt in X. cbn [handles flat_map app count_occ].
        destruct (Nat.eq_dec (length fs) h'); [lia|]. destruct (Nat.eq_dec (S (length fs)) h'); [lia|]. auto.
      * apply Nat.ltb_ge in X. rewrite live_over in C by lia.
        cbn [handles flat_map app count_occ]. fold (handles ws). destruct (Nat.eq_dec (length fs) h') as [<-|N1].
        { rewrite Nat.sub_diag. destruct (Nat.eq_dec (S (length fs)) (length fs)); [lia|]. unfold live. simpl. lia. }
        destruct (Nat.eq_dec (S (length fs)) h') as [<-|N2].
        { replace (S (length fs) - length fs) with 1 by lia. unfold live. simpl. lia. }
        rewrite live_over by (simpl; lia). auto.
Qed.

Lemma measure_ok fs ws b : bal fs ws ->
  bal (fs ++ [(b, true)]) (Later (length fs) :: ws) /\ ext fs (fs ++ [(b, true)]) /\
  stands_for (fs ++ [(b, true)]) (Later (length fs)) b.
Proof.
  intros B. split; [|split; [apply ext_app|]].
  - intros h. pose proof (B h) as C. rewrite live_app.
    destruct (h <? length fs) eqn:X.
    + apply Nat.ltb_lt in X. simpl. destruct (Nat.eq_dec _ h); [lia|]. auto.
    + apply Nat.ltb_ge in X. rewrite live_over in C by lia. simpl.
      destruct (Nat.eq_dec (length fs) h) as [<-|N].
      * rewrite Nat.sub_diag. unfold live. simpl. lia.
      * rewrite live_over by (simpl; lia). auto.
  - simpl. exists true. rewrite nth_error_app2, Nat.sub_diag by lia. auto.
Qed.

(** * Copies *)

Lemma bal_perm fs a b : (forall h, count_occ Nat.eq_dec (handles a) h = count_occ Nat.eq_dec (handles b) h) ->
  bal fs a -> bal fs b.
Proof. intros P B h. rewrite <- P. auto. Qed.

Lemma bal_swap fs x a b : bal fs (x :: a ++ b) <-> bal fs (a ++ x :: b).
Proof.
  assert (E : exists k : nat -> nat, forall h l, count_occ Nat.eq_dec (handles (x :: l)) h =
    k h + count_occ Nat.eq_dec (handles l) h).
  { exists (fun h => count_occ Nat.eq_dec (handles [x]) h).
    intros h l. change (x :: l) with ([x] ++ l). rewrite handles_app, count_occ_app. auto. }
  destruct E as (k & E).
  split; apply bal_perm; intros h; rewrite ?E, !handles_app, !count_occ_app, ?E; lia.
Qed.

Lemma bal_app_comm fs a b c : bal fs (a ++ b ++ c) -> bal fs (b ++ a ++ c).
Proof. apply bal_perm. intros h. rewrite !handles_app, !count_occ_app. lia. Qed.

Lemma fan_ok : forall n w fs ws b, bal fs (w :: ws) -> stands_for fs w b ->
  exists l fs', fan n w fs = Some (l, fs') /\ ext fs fs' /\ length l = n /\
    Forall (fun w => stands_for fs' w b) l /\ bal fs' (l ++ ws).
Proof.
  induction n as [|n IH]; intros w fs ws b B Sw0.
  - simpl. destruct (discard_ok w fs ws B) as (fs' & D & X & B'). rewrite D. exists [], fs'. auto 6.
  - destruct n as [|n].
    + simpl. exists [w], fs. repeat split; auto. apply ext_refl.
    + change (fan (S (S n)) w fs) with
        (match copy_sum w fs with
         | None => None
         | Some ((a, b), fs1) =>
             match fan (S n) b fs1 with None => None | Some (l, fs2) => Some (a :: l, fs2) end
         end).
      destruct (copy_ok w fs ws b B Sw0) as (w1 & w2 & fs1 & C & X & S1 & S2 & B1). rewrite C.
      assert (B2 : bal fs1 (w2 :: w1 :: ws)).
      { apply (bal_swap fs1 w1 [w2] ws) in B1. auto. }
      destruct (IH w2 fs1 (w1 :: ws) b B2 S2) as (l & fs2 & F & X2 & L & Fl & B3). rewrite F.
      exists (w1 :: l), fs2. split; auto. split; [eapply ext_trans; eauto|]. split; [simpl; lia|].
      split; [constructor; auto; eapply stands_ext; eauto|]. simpl. apply bal_swap. auto.
Qed.

(** * Running *)

Lemma take_spec : forall st x l, nth_error st x = Some l -> l <> [] ->
  exists w l' st1 st2, l = w :: l' /\ st = st1 ++ (w :: l') :: st2 /\ length st1 = x /\
    take x st = Some (w, st1 ++ l' :: st2).
Proof.
  induction st as [|l0 st IH]; intros [|x] l E N; simpl in E; try discriminate.
  - injection E as ->. destruct l as [|w l']; [congruence|]. exists w, l', [], st. auto.
  - destruct (IH x l E N) as (w & l' & st1 & st2 & -> & -> & L & T).
    exists w, l', (l0 :: st1), st2. simpl. rewrite T.
    destruct l0; auto.
Qed.

Section Run.
Variable Q : Type.
Variable measure measure_reset : nat -> Q -> bool * Q.

(** The invariant: as many copies as uses to come, all standing for the value in
    the source, and all live handles among them. *)
Definition stored (o : list bool) (st : list (list sumv)) (fs : futures) (need : nat -> nat) (extra : list sumv) : Prop :=
  length st = length o /\
  (forall x l, nth_error st x = Some l -> length l = need x /\ Forall (fun w => stands_for fs w (get o x)) l) /\
  bal fs (extra ++ concat st).

Lemma stored_take o st fs need extra x : stored o st fs need extra -> x < length o -> 0 < need x ->
  exists w st', take x st = Some (w, st') /\ stands_for fs w (get o x) /\
    stored o st' fs (fun y => if Nat.eq_dec x y then need y - 1 else need y) (w :: extra).
Proof.
  intros (L & C & B) Hx Hn.
  destruct (nth_error st x) as [l|] eqn:E; [|apply nth_error_None in E; lia].
  destruct (C x l E) as [Ll Fl].
  destruct (take_spec st x l E) as (w & l' & st1 & st2 & -> & -> & L1 & T).
  { intros ->. simpl in Ll. lia. }
  rewrite T. exists w, (st1 ++ l' :: st2). inversion Fl; subst. split; auto. split; auto.
  split; [rewrite app_length in *; simpl in *; lia|]. split.
  - intros y ly Ey. destruct (Nat.eq_dec (length st1) y) as [<-|N].
    + rewrite nth_error_app2, Nat.sub_diag in Ey by lia. injection Ey as <-. simpl in Ll. split; [lia|auto].
    + apply C. destruct (Nat.lt_ge_cases y (length st1)).
      * rewrite nth_error_app1 in * by lia. auto.
      * rewrite nth_error_app2 in * by lia. destruct (y - length st1) eqn:Z; [lia|]. auto.
  - rewrite !concat_app in *. simpl in *.
    apply (bal_perm fs (extra ++ concat st1 ++ w :: l' ++ concat st2)); auto.
    intros h. change (w :: l' ++ concat st2) with ([w] ++ l' ++ concat st2).
    change (w :: extra ++ concat st1 ++ l' ++ concat st2) with ([w] ++ extra ++ concat st1 ++ l' ++ concat st2).
    rewrite !handles_app, !count_occ_app. lia.
Qed.

Lemma stored_ext o st fs fs' need extra extra' :
  stored o st fs need extra -> ext fs fs' -> bal fs' (extra' ++ concat st) -> stored o st fs' need extra'.
Proof.
  intros (L & C & B) X B'. split; auto. split; auto.
  intros x l E. destruct (C x l E) as [Ll Fl]. split; auto.
  eapply Forall_impl; [|exact Fl]. intros w. apply stands_ext; auto.
Qed.

Lemma stored_need o st fs need need' extra :
  stored o st fs need extra -> (forall x, x < length o -> need x = need' x) -> stored o st fs need' extra.
Proof.
  intros (L & C & B) N. split; auto. split; auto.
  intros x l E. destruct (C x l E) as [Ll Fl]. split; auto. rewrite Ll. apply N.
  rewrite <- L. apply nth_error_Some. congruence.
Qed.

Lemma get_app1 o b x : x < length o -> get (o ++ [b]) x = get o x.
Proof. intros H. unfold get. rewrite app_nth1; auto. Qed.

Lemma get_app2 o b : get (o ++ [b]) (length o) = b.
Proof. unfold get. rewrite app_nth2, Nat.sub_diag; auto. Qed.

Lemma stored_define o st fs need r b (m : mach Q) q :
  stored o st fs need [r] -> stands_for fs r b ->
  exists st' fs', define (need (length o)) r fs m st q = Some (Mach st' (mnative m) q fs') /\
    ext fs fs' /\ stored (o ++ [b]) st' fs' need [].
Proof.
  intros (L & C & B) S. unfold define.
  destruct (fan_ok (need (length o)) r fs (concat st) b B S) as (l & fs' & F & X & Ll & Fl & B').
  rewrite F. exists (st ++ [l]), fs'. split; auto. split; auto.
  split; [rewrite !app_length; simpl; lia|]. split.
  - intros x lx Ex. destruct (Nat.lt_ge_cases x (length st)) as [Hx|Hx].
    + rewrite nth_error_app1 in Ex by lia. destruct (C x lx Ex) as [A D]. split; auto.
      rewrite get_app1 by lia. eapply Forall_impl; [|exact D]. intros w. apply stands_ext; auto.
    + rewrite nth_error_app2 in Ex by lia. destruct (x - length st) as [|k] eqn:Z.
      * injection Ex as <-. assert (x = length o) by lia. subst x. split; auto. rewrite get_app2. auto.
      * destruct k; discriminate.
  - rewrite concat_app. simpl. rewrite app_nil_r.
    rewrite <- (app_nil_r (concat st ++ l)), <- app_assoc. apply bal_app_comm. rewrite app_nil_r. auto.
Qed.

Definition matches (s : src Q) (m : mach Q) (need : nat -> nat) : Prop :=
  mnative m = native s /\ mq m = qstate s /\ stored (opaque s) (wires m) (futs m) need [].

Lemma uses_cons x (i : instr Q) p outs :
  uses x (i :: p) outs = count_occ Nat.eq_dec (operands i) x + uses x p outs.
Proof. unfold uses. simpl. rewrite <- app_assoc, count_occ_app. auto. Qed.

Lemma src_length i (s : src Q) :
  length (opaque (src_step measure measure_reset i s)) =
  if makes_opaque i then S (length (opaque s)) else length (opaque s).
Proof.
  destruct i; simpl; rewrite ?app_length; simpl; try lia.
  - destruct (measure q (qstate s)). simpl. rewrite app_length. simpl. lia.
  - destruct (measure_reset q (qstate s)). simpl. rewrite app_length. simpl. lia.
  - destruct (f (map (get (native s)) ns) (qstate s)). auto.
Qed.

Lemma step_ok i p outs (s : src Q) (m : mach Q) :
  scoped (length (opaque s)) (i :: p) outs ->
  matches s m (fun x => uses x (i :: p) outs) ->
  exists m', step measure measure_reset i (if makes_opaque i then uses (length (opaque s)) p outs else 0) m = Some m' /\
    matches (src_step measure measure_reset i s) m' (fun x => uses x p outs) /\
    ext (futs m) (futs m').
Proof.
  intros Sc (En & Eq & St).
  (* definitions without operands *)
  assert (D0 : forall r b fs q, ext (futs m) fs -> stands_for fs r b -> operands i = [] ->
             bal fs (r :: concat (wires m)) ->
             exists m', define (uses (length (opaque s)) p outs) r fs m (wires m) q = Some m' /\
                        matches (Src (opaque s ++ [b]) (native s) q) m' (fun x => uses x p outs) /\ ext (futs m) (futs m')).
  { intros r b fs q X Sr O B.
    assert (St' : stored (opaque s) (wires m) fs (fun x => uses x p outs) [r]).
    { eapply stored_need; [eapply stored_ext; [exact St|exact X|]|].
      - simpl. auto.
      - intros x _. cbv beta; rewrite uses_cons, O. auto. }
    destruct (stored_define _ _ _ _ r b m q St' Sr) as (st' & fs' & Df & X' & St'').
    cbv beta in Df. exists (Mach st' (mnative m) q fs'). split; [exact Df|]. split; [split; [simpl; auto|split; simpl; auto]|].
    simpl. eapply ext_trans; eauto. }
  assert (B0 : bal (futs m) (concat (wires m))) by (destruct St as (_ & _ & B); exact B).
  destruct i as [b|n|x|o x y|x|k|k|f ns|f ns]; simpl in Sc; simpl step; simpl makes_opaque; cbv iota.
  - rewrite Eq. apply D0; auto using ext_refl. simpl. auto.
  - rewrite Eq, En. unfold make_opaque_op_dest. apply D0; auto using ext_refl. simpl. auto.
  - destruct Sc as [Hx Sc].
    destruct (stored_take _ _ _ _ _ x St Hx) as (w & st' & T & Sw & St').
    { cbv beta; rewrite uses_cons. simpl. destruct (Nat.eq_dec x x); [lia|congruence]. }
    rewrite T. pose proof St' as (L & C & B). simpl in B.
    destruct (read_ok w (futs m) (concat st') (get (opaque s) x) B Sw) as (fs' & R & X & B').
    unfold read_op_dest. rewrite R. eexists. split; [reflexivity|]. split; [|simpl; auto].
    split; [simpl; rewrite En; auto|]. split; [simpl; auto|]. simpl.
    eapply stored_need; [eapply (stored_ext _ _ _ _ _ _ []); [|exact X|exact B']|].
    + exact St'.
    + intros y _. simpl. cbv beta; rewrite uses_cons. simpl. destruct (Nat.eq_dec x y); lia.
  - destruct Sc as (Hx & Hy & Sc).
    destruct (stored_take _ _ _ _ _ x St Hx) as (w & st1 & T & Sw & St1).
    { cbv beta; rewrite uses_cons. simpl. destruct (Nat.eq_dec x x); [|congruence]. destruct (Nat.eq_dec y x); lia. }
    rewrite T.
    destruct (stored_take _ _ _ _ _ y St1 Hy) as (w2 & st2 & T2 & Sw2 & St2).
    { cbv beta. cbv beta; rewrite uses_cons. simpl. destruct (Nat.eq_dec x y), (Nat.eq_dec y y); try lia; congruence. }
    rewrite T2. pose proof St2 as (L & C & B).
    assert (B1 : bal (futs m) (w :: w2 :: concat st2)) by (apply (bal_swap _ w2 [w] (concat st2)) in B; exact B).
    destruct (read_ok w (futs m) _ _ B1 Sw) as (fs1 & R1 & X1 & B2).
    destruct (read_ok w2 fs1 _ _ B2 (stands_ext _ _ _ _ X1 Sw2)) as (fs2 & R2 & X2 & B3).
    unfold binary_logic_op_dest. rewrite R1, R2.
    assert (X12 : ext (futs m) fs2) by (eapply ext_trans; eauto).
    assert (St' : stored (opaque s) st2 fs2 (fun x => uses x p outs)
                    [Now (eval_bop o (get (opaque s) x) (get (opaque s) y))]).
    { eapply stored_need; [eapply stored_ext; [|exact X12|]|].
      - exact St2.
      - simpl. exact B3.
      - intros z _. cbv beta. cbv beta; rewrite uses_cons. simpl.
        destruct (Nat.eq_dec y z), (Nat.eq_dec x z); lia. }
    destruct (stored_define _ _ _ _ _ (eval_bop o (get (opaque s) x) (get (opaque s) y)) m (mq m) St' eq_refl)
      as (st' & fs' & Df & X' & St'').
    cbv beta in Df. rewrite Df. eexists. split; [reflexivity|]. split; [|simpl; eapply ext_trans; eauto].
    split; [auto|]. split; auto.
  - destruct Sc as [Hx Sc].
    destruct (stored_take _ _ _ _ _ x St Hx) as (w & st1 & T & Sw & St1).
    { cbv beta; rewrite uses_cons. simpl. destruct (Nat.eq_dec x x); [lia|congruence]. }
    rewrite T. pose proof St1 as (L & C & B).
    destruct (read_ok w (futs m) _ _ B Sw) as (fs1 & R1 & X1 & B2).
    unfold not_op_dest. rewrite R1.
    assert (St' : stored (opaque s) st1 fs1 (fun x => uses x p outs) [Now (negb (get (opaque s) x))]).
    { eapply stored_need; [eapply stored_ext; [|exact X1|]|].
      - exact St1.
      - simpl. exact B2.
      - intros z _. cbv beta. cbv beta; rewrite uses_cons. simpl. destruct (Nat.eq_dec x z); lia. }
    destruct (stored_define _ _ _ _ _ (negb (get (opaque s) x)) m (mq m) St' eq_refl)
      as (st' & fs' & Df & X' & St'').
    cbv beta in Df. rewrite Df. eexists. split; [reflexivity|]. split; [|simpl; eapply ext_trans; eauto].
    split; [auto|]. split; auto.
  - rewrite Eq. simpl src_step. destruct (measure k (qstate s)) as [b q'] eqn:M. unfold measure_dest.
    destruct (measure_ok (futs m) _ b B0) as (B1 & X1 & S1). apply D0; auto.
  - rewrite Eq. simpl src_step. destruct (measure_reset k (qstate s)) as [b q'] eqn:M. unfold measure_dest.
    destruct (measure_ok (futs m) _ b B0) as (B1 & X1 & S1). apply D0; auto.
  - eexists. split; [reflexivity|]. split; [|apply ext_refl]. split; [simpl; rewrite En; auto|]. split; [auto|].
    eapply stored_need; [exact St|]. intros. cbv beta; rewrite uses_cons. auto.
  - rewrite En, Eq. simpl src_step. destruct (f (map (get (native s)) ns) (qstate s)) as [r q'].
    eexists. split; [reflexivity|]. split; [|apply ext_refl]. split; [simpl; auto|]. split; [simpl; auto|].
    eapply stored_need; [exact St|]. intros. cbv beta; rewrite uses_cons. auto.
Qed.

Lemma scoped_next i p outs (s : src Q) :
  scoped (length (opaque s)) (i :: p) outs ->
  scoped (length (opaque (src_step measure measure_reset i s))) p outs.
Proof.
  intros H. rewrite src_length. destruct i; simpl in *; tauto.
Qed.

Lemma run_ok : forall p outs (s : src Q) (m : mach Q),
  scoped (length (opaque s)) p outs ->
  matches s m (fun x => uses x p outs) ->
  exists m', run measure measure_reset (lower (length (opaque s)) p outs) m = Some m' /\
    matches (src_run measure measure_reset p s) m' (fun x => uses x (@nil (instr Q)) outs) /\
    scoped (length (opaque (src_run measure measure_reset p s))) (@nil (instr Q)) outs.
Proof.
  induction p as [|i p IH]; intros outs s m Sc M.
  - exists m. simpl. auto.
  - destruct (step_ok i p outs s m Sc M) as (m1 & E & M1 & _).
    destruct (IH outs (src_step measure measure_reset i s) m1 (scoped_next _ _ _ _ Sc) M1) as (m2 & R & M2 & Sc2).
    exists m2. split; auto. cbn [lower]. pose proof (src_length i s) as L.
    destruct (makes_opaque i); simpl run; rewrite E, <- L; auto.
Qed.

Lemma take_all_ok : forall outs o st fs extra,
  stored o st fs (fun x => count_occ Nat.eq_dec outs x) extra ->
  Forall (fun x => x < length o) outs ->
  exists ws st', take_all outs st = Some (ws, st') /\
    Forall2 (fun w x => stands_for fs w (get o x)) ws outs /\
    Forall (fun l => l = []) st' /\ bal fs (ws ++ extra).
Proof.
  induction outs as [|x outs IH]; intros o st fs extra St F.
  - exists [], st. simpl. split; auto. split; [constructor|].
    destruct St as (L & C & B).
    assert (E : Forall (fun l => l = []) st).
    { apply Forall_forall. intros l I. apply In_nth_error in I as (y & Ey).
      destruct (C y l Ey) as [Ll _]. simpl in Ll. apply length_zero_iff_nil. auto. }
    split; auto.
    assert (Z : concat st = []) by (clear - E; induction E; simpl; subst; auto).
    rewrite Z, app_nil_r in B. auto.
  - inversion F; subst.
    destruct (stored_take _ _ _ _ _ x St H1) as (w & st1 & T & Sw & St1).
    { simpl. destruct (Nat.eq_dec x x); [lia|congruence]. }
    assert (St2 : stored o st1 fs (fun x => count_occ Nat.eq_dec outs x) (w :: extra)).
    { eapply stored_need; [exact St1|]. intros y _. simpl. destruct (Nat.eq_dec x y); lia. }
    destruct (IH o st1 fs (w :: extra) St2 H2) as (ws & st' & Ta & F2 & E & B).
    exists (w :: ws), st'. simpl. rewrite T, Ta. split; auto. split; [constructor; auto|]. split; auto.
    apply bal_swap. auto.
Qed.

Lemma inputs_ok (need : nat -> nat) : forall ws bs o (m : mach Q),
  length ws = length bs ->
  (forall w b, In (w, b) (combine ws bs) -> stands_for (futs m) w b) ->
  stored o (wires m) (futs m) need ws ->
  exists m', fan_inputs (map need (seq (length o) (length ws))) ws m = Some m' /\
    mnative m' = mnative m /\ mq m' = mq m /\
    stored (o ++ bs) (wires m') (futs m') need [].
Proof.
  induction ws as [|w ws IH]; intros [|b bs] o m L D St; simpl in L; try lia.
  - exists m. simpl. rewrite app_nil_r. auto.
  - cbn [length seq map fan_inputs]. unfold define.
    destruct St as (Ls & C & B).
    destruct (fan_ok (need (length o)) w (futs m) (ws ++ concat (wires m)) b B) as (l & fs' & F & X & Ll & Fl & B').
    { apply D. left; auto. }
    rewrite F.
    destruct (IH bs (o ++ [b]) (Mach (wires m ++ [l]) (mnative m) (mq m) fs')) as (m' & E & A1 & A2 & A3).
    + lia.
    + simpl. intros w' b' I. eapply stands_ext; [exact X|]. apply D. right. auto.
    + simpl. split; [rewrite !app_length; simpl; lia|]. split.
      * intros x lx Ex. destruct (Nat.lt_ge_cases x (length (wires m))) as [Hx|Hx].
        { rewrite nth_error_app1 in Ex by lia. destruct (C x lx Ex) as [A Df]. split; auto.
          rewrite get_app1 by lia. eapply Forall_impl; [|exact Df]. intros z. apply stands_ext; auto. }
        { rewrite nth_error_app2 in Ex by lia. destruct (x - length (wires m)) as [|k] eqn:Z.
          - injection Ex as <-. assert (x = length o) by lia. subst x. split; auto. rewrite get_app2. auto.
          - destruct k; discriminate. }
      * rewrite concat_app. simpl. rewrite app_nil_r.
        revert B'. apply bal_perm. intros h. rewrite !handles_app, !count_occ_app. lia.
    + exists m'. rewrite app_length in E. simpl in E. rewrite Nat.add_1_r in E. split; [exact E|].
      simpl in *. rewrite <- app_assoc in A3. auto.
Qed.

Lemma lowered_ok (p : list (instr Q)) outs inputs bs natives q fs :
  length inputs = length bs ->
  (forall w b, In (w, b) (combine inputs bs) -> stands_for fs w b) ->
  owns fs inputs ->
  scoped (length inputs) p outs ->
  let s := src_run measure measure_reset p (Src bs natives q) in
  exists ws m,
    run_lowered measure measure_reset p outs inputs natives q fs = Some (ws, m) /\
    mnative m = native s /\ mq m = qstate s /\
    Forall2 (fun w x => stands_for (futs m) w (get (opaque s) x)) ws outs /\
    Forall (fun l => l = []) (wires m) /\
    owns (futs m) ws.
Proof.
  intros L D O Sc s. apply bal_owns in O.
  unfold run_lowered, input_copies.
  destruct (inputs_ok (fun x => uses x p outs) inputs bs [] (Mach [] natives q fs)) as (m0 & E0 & N0 & Q0 & St0); auto.
  { split; [auto|]. split; [intros x l E; destruct x; discriminate|]. simpl. rewrite app_nil_r. auto. }
  simpl in E0. rewrite E0. simpl in N0, Q0, St0.
  rewrite L in *.
  destruct (run_ok p outs (Src bs natives q) m0) as (m1 & R & (N1 & Q1 & St1) & Sc1); auto.
  { split; auto. }
  simpl opaque in R. rewrite R.
  destruct (take_all_ok outs (opaque s) (wires m1) (futs m1) []) as (ws & st & T & F & E & B); auto.
  rewrite T. eexists _, _. split; [reflexivity|]. simpl. repeat split; auto; try apply bal_owns; rewrite app_nil_r in B; auto.
  all: apply bal_owns in B; apply B.
Qed.
End Run.

(** * Arrays *)

Definition cells (arr : list (option sumv)) : list sumv :=
  flat_map (fun o => match o with Some w => [w] | None => [] end) arr.

Lemma cells_app a b : cells (a ++ b) = cells a ++ cells b.
Proof. apply flat_map_app. Qed.

Lemma barray_get_ok arr idx fs others e b :
  bal fs (cells arr ++ others) ->
  nth_error arr idx = Some (Some e) -> stands_for fs e b ->
  exists e1 e2 fs', barray_get_dest arr idx fs = Some ((Some e2, firstn idx arr ++ Some e1 :: skipn (S idx) arr), fs') /\
    ext fs fs' /\ stands_for fs' e1 b /\ stands_for fs' e2 b /\
    bal fs' (e2 :: cells (firstn idx arr ++ Some e1 :: skipn (S idx) arr) ++ others).
Proof.
  intros B E Se. unfold barray_get_dest.
  assert (Hi : idx < length arr) by (apply nth_error_Some; congruence).
  apply Nat.ltb_lt in Hi. rewrite Hi, E.
  assert (A : arr = firstn idx arr ++ Some e :: skipn (S idx) arr).
  { clear - E. revert idx E. induction arr as [|a arr IH]; intros [|i] E; simpl in *; try discriminate.
    - injection E as ->. auto.
    - f_equal. apply IH. auto. }
  rewrite A in B. rewrite cells_app in B. simpl in B.
  assert (B1 : bal fs (e :: cells (firstn idx arr) ++ cells (skipn (S idx) arr) ++ others)).
  { apply (bal_swap fs e (cells (firstn idx arr)) (cells (skipn (S idx) arr) ++ others)).
    rewrite <- app_assoc in B. simpl in B. exact B. }
  destruct (copy_ok e fs _ b B1 Se) as (e1 & e2 & fs' & C & X & S1 & S2 & B2).
  rewrite C. exists e1, e2, fs'. split; auto. split; auto. split; auto. split; auto.
  rewrite cells_app. simpl. rewrite <- app_assoc. simpl.
  apply (bal_swap fs' e1 (e2 :: cells (firstn idx arr)) (cells (skipn (S idx) arr) ++ others)). auto.
Qed.
