(** The correspondence of a whole region, and the shape of the new one. *)
From Coq Require Import List Arith Bool Lia Permutation.
From Verif Require Import OpsModel ResolveModel ResolveSpec ResolveWire ResolvePorts ResolveProofs ResolveMain DfgModel DfgSpec DfgProofs.
Import ListNotations.
Local Notation S := Datatypes.S.

Definition O (s : node * nat) : wire := (fst s, (Outgoing, snd s)).
Definition I (t : node * nat) : wire := (fst t, (Incoming, snd t)).

Lemma O_inj : forall a b, O a = O b -> a = b.
Proof. intros [] [] H. unfold O in H. simpl in H. congruence. Qed.
Lemma I_inj : forall a b, I a = I b -> a = b.
Proof. intros [] [] H. unfold I in H. simpl in H. congruence. Qed.
Lemma O_I : forall a b, O a <> I b.
Proof. intros a b H. unfold O, I in H. congruence. Qed.

(** ** Counterparts *)

Lemma number_firstn_inj : forall l i j, nth_error l i = Some true -> nth_error l j = Some true ->
  number (fun b : bool => b) (firstn i l) = number (fun b => b) (firstn j l) -> i = j.
Proof.
  unfold number. induction l as [|b l IH]; intros [|i] [|j] A B E; simpl in *; try discriminate; auto.
  - injection A as ->. simpl in E. discriminate.
  - injection B as ->. simpl in E. discriminate.
  - f_equal. apply IH; auto. destruct b; simpl in E; lia.
Qed.

Lemma counterpart_fun : forall l i l' j j', counterpart (fun b : bool => b) l i l' j ->
  counterpart (fun b => b) l i l' j' -> j = j'.
Proof.
  intros l i l' j j' (t & Q & A & B & E) (t' & Q' & A' & B' & E').
  cbv beta in Q, Q'. apply (number_firstn_inj l'); congruence.
Qed.
Lemma counterpart_sym : forall l i l' j, counterpart (fun b : bool => b) l i l' j ->
  counterpart (fun b => b) l' j l i.
Proof. intros l i l' j (t & Q & A & B & E). exists t. auto. Qed.
Lemma counterpart_true : forall l i l' j, counterpart (fun b : bool => b) l i l' j ->
  nth_error l i = Some true /\ nth_error l' j = Some true.
Proof. intros l i l' j (t & Q & A & B & E). cbv beta in Q. split; congruence. Qed.

(** ** Copied operations on classical values *)

Lemma filter_nil : forall (A : Type) (f : A -> bool) l, (forall x, In x l -> f x = false) -> filter f l = [].
Proof.
  induction l as [|a l IH]; intro H; simpl; auto. rewrite (H a) by (left; auto).
  apply IH. intros. apply H. right; auto.
Qed.

Lemma runs_classical : forall l, (forall b, In b l -> b = false) -> runs (fun b : bool => b) l = [].
Proof.
  intros l H. unfold runs. apply filter_nil. induction l as [|b l IH]; simpl.
  - intros x [<-|[]]. auto.
  - rewrite (H b) by (left; auto). intros x [<-|J]; auto. apply IH; auto. intros. apply H. right; auto.
Qed.

Definition in_ports (ins outs : list bool) (p : port) : Prop :=
  match fst p with Incoming => snd p < length ins | Outgoing => snd p < length outs end.

Lemma in_ports_iff : forall ins outs p,
  In p (ports 0 (length ins) 0 (length outs)) <-> in_ports ins outs p.
Proof.
  intros ins outs [dd i]. unfold ports, in_ports. rewrite in_app_iff, !in_map_iff. simpl. split.
  - intros [(x & E & J)|(x & E & J)]; apply in_seq in J; injection E as <- <-; lia.
  - intro H. destruct dd; [left|right]; exists i; rewrite in_seq; split; auto; lia.
Qed.

Lemma copied_same : forall d ins outs, (forall b, In b (ins ++ outs) -> b = false) ->
  exists m, wire_node_inout (fun b => b) d ins outs 0 0 0 = Some m /\
    forall p p', In (p, p') m <-> in_ports ins outs p /\ p' = p.
Proof.
  intros d ins outs H.
  destruct (C29_bijection_pf _ (fun b : bool => b) d ins outs 0 0 0) as (m & W & K & _ & N & _).
  exists m. split; auto.
  assert (Same : forall p p', In (p, p') m -> p' = p).
  { destruct d.
    - intros p p' J.
      assert (D := C29_dagger_partial_pf _ (fun b : bool => b) ins outs 0 0 0 m W
                    (or_introl (eq_trans (runs_classical ins (fun b B => H b (in_or_app _ _ _ (or_introl B))))
                       (eq_sym (runs_classical outs (fun b B => H b (in_or_app _ _ _ (or_intror B)))))))
                    p p' J).
      destruct p as [[] i]; simpl in D; destruct D as (i' & t & E & Nt & D); subst i;
        assert (Ft : t = false) by (apply H, in_or_app; apply nth_error_In in Nt; auto);
        rewrite Ft in D; auto.
    - intros p p' J. apply (C29_shift_pf _ _ ins outs 0 0 0 m W) in J. destruct J as [_ ->].
      destruct p. simpl. f_equal. lia. }
  intros p p'. split.
  - intro J. split; [|eauto]. apply in_ports_iff. apply (Permutation_in _ K). apply (in_map fst) in J. auto.
  - intros [J ->]. apply in_ports_iff in J. apply (Permutation_in _ (Permutation_sym K)) in J.
    apply in_map_iff in J. destruct J as ([q q'] & E & J). simpl in E. subst q.
    rewrite (Same _ _ J) in J. auto.
Qed.

(** ** The input and output nodes *)

Lemma body_corr : forall d n ins outs, (d = true -> reversible_rows ins outs) ->
  exists m, wire_body (fun b => b) d ins outs 0 0 n = Some m /\
    NoDup (map fst m) /\
    (forall p p', In (p, p') m -> match p with
      | (Incoming, j) => exists b, nth_error outs j = Some b /\
          if d && b then exists i, p' = (Outgoing, n + i) /\ counterpart (fun b => b) outs j ins i
          else p' = (Incoming, n + j)
      | (Outgoing, i) => exists b, nth_error ins i = Some b /\
          if d && b then exists j, p' = (Incoming, n + j) /\ counterpart (fun b => b) ins i outs j
          else p' = (Outgoing, n + i) end) /\
    (forall p, in_ports outs ins p -> exists p', In (p, p') m).
Proof.
  intros d n ins outs R.
  destruct (C29_bijection_pf _ (fun b : bool => b) d outs ins 0 0 n) as (m & W & K & _ & N & _).
  exists m. split; [exact W|]. split; auto. split.
  - intros p p' J. destruct d.
    + destruct (C29_bijection_pf _ (fun b : bool => b) true ins outs 0 0 n) as (mo & Wo & _).
      assert (In2 := C29_inside_pf _ (fun b : bool => b) true ins outs 0 0 n mo m Wo W (across p) (across p')).
      assert (AA : forall x, across (across x) = x) by (intros [[] x]; auto).
      rewrite !AA in In2. apply In2 in J.
      assert (D := C29_dagger_partial_pf _ (fun b : bool => b) ins outs 0 0 n mo Wo (R eq_refl) _ _ J).
      destruct p as [[] i]; unfold across in D; simpl in D; destruct D as (i' & t & E & Nt & D); subst i;
        exists t; split; auto; simpl; destruct t; simpl.
      * destruct D as (j & E & C). exists j. split; auto. unfold across in E. destruct p' as [[] x]; simpl in E; congruence.
      * destruct p' as [[] x]; simpl in D; congruence.
      * destruct D as (j & E & C). exists j. split; auto. unfold across in E. destruct p' as [[] x]; simpl in E; congruence.
      * destruct p' as [[] x]; simpl in D; congruence.
    + apply (C29_shift_pf _ _ outs ins 0 0 n m W) in J. destruct J as [J ->]. apply in_ports_iff in J.
      destruct p as [[] i]; unfold in_ports in J; simpl in *.
      * destruct (nth_error outs i) as [b|] eqn:Q; [exists b; split; auto; f_equal; lia|].
        apply nth_error_None in Q. lia.
      * destruct (nth_error ins i) as [b|] eqn:Q; [exists b; split; auto; f_equal; lia|].
        apply nth_error_None in Q. lia.
  - intros p J. apply in_ports_iff in J. apply (Permutation_in _ (Permutation_sym K)) in J.
    apply in_map_iff in J. destruct J as ([q q'] & E & J). simpl in E. subst q. eauto.
Qed.

(** ** The whole correspondence *)

Section Region.
Variables (d : bool) (n : nat) (g : graph).
Hypothesis W : wf g.
Hypothesis Fl : flat g.
Hypothesis Rv : d = true -> reversible_rows (g_ins g) (g_outs g).

Definition corr (w w' : wire) : Prop :=
  match w with
  | (Nd k, (dd, i)) => exists o, In (k, o) (g_nodes g) /\
      match o with
      | Gate gg _ _ =>
          match dd with
          | Incoming => i < gop_qubits gg + gop_angles gg /\
              w' = (Nd k, (if d && (i <? gop_qubits gg) then Outgoing else Incoming, n + i))
          | Outgoing => i < gop_qubits gg /\ w' = (Nd k, (if d then Incoming else Outgoing, n + i))
          end
      | Copied _ ins outs => w' = w /\ in_ports ins outs (dd, i)
      end
  | (Outp, (Incoming, j)) => exists b, nth_error (g_outs g) j = Some b /\
      if d && b then exists i, w' = (Inp, (Outgoing, n + i)) /\ counterpart (fun b => b) (g_outs g) j (g_ins g) i
      else w' = (Outp, (Incoming, n + j))
  | (Inp, (Outgoing, i)) => exists b, nth_error (g_ins g) i = Some b /\
      if d && b then exists j, w' = (Outp, (Incoming, n + j)) /\ counterpart (fun b => b) (g_ins g) i (g_outs g) j
      else w' = (Inp, (Outgoing, n + i))
  | _ => False
  end.

Lemma nodes_fun : forall k o o', In (k, o) (g_nodes g) -> In (k, o') (g_nodes g) -> o = o'.
Proof.
  intros k o o' A B. apply (find_node_in _ _ _ (wf_nodes g W)) in A.
  apply (find_node_in _ _ _ (wf_nodes g W)) in B. congruence.
Qed.

Lemma corr_fun : forall w w1 w2, corr w w1 -> corr w w2 -> w1 = w2.
Proof.
  intros [[| |k] [dd i]] w1 w2 A B; simpl in A, B.
  - destruct dd; [destruct A|]. destruct A as (b & Nb & A), B as (b' & Nb' & B).
    assert (b' = b) by congruence. subst b'. destruct (d && b).
    + destruct A as (j & -> & A), B as (j' & -> & B). rewrite (counterpart_fun _ _ _ _ _ A B). auto.
    + congruence.
  - destruct dd; [|destruct A]. destruct A as (b & Nb & A), B as (b' & Nb' & B).
    assert (b' = b) by congruence. subst b'. destruct (d && b).
    + destruct A as (j & -> & A), B as (j' & -> & B). rewrite (counterpart_fun _ _ _ _ _ A B). auto.
    + congruence.
  - destruct A as (o & No & A), B as (o' & No' & B). rewrite (nodes_fun _ _ _ No' No) in B.
    destruct o as [gg d' n'|l ins outs].
    + destruct dd; destruct A as [_ ->], B as [_ ->]; auto.
    + destruct A as [-> _], B as [-> _]. auto.
Qed.

Lemma andb_dq : forall b q i, (d && (i <? q))%bool = b -> d = true -> b = (i <? q).
Proof. intros. subst. auto. Qed.

Ltac inv_eq H := injection H; clear H; intros; subst.

Lemma corr_inj : forall w1 w2 w, corr w1 w -> corr w2 w -> w1 = w2.
Proof.
  intros [[| |k] [dd i]] [[| |k'] [dd' i']] w A B; simpl in A, B.
  - destruct dd; [destruct A|]. destruct dd'; [destruct B|].
    destruct A as (b & Nb & A), B as (b' & Nb' & B).
    destruct (d && b) eqn:Q, (d && b') eqn:Q'.
    + destruct A as (j & Ej & A), B as (j' & Ej' & B). rewrite Ej' in Ej. injection Ej as Ej.
      assert (j' = j) by lia. subst j'.
      rewrite (counterpart_fun _ _ _ _ _ (counterpart_sym _ _ _ _ A) (counterpart_sym _ _ _ _ B)). auto.
    + destruct A as (j & -> & A). discriminate B.
    + destruct B as (j & -> & B). discriminate A.
    + rewrite A in B. injection B as B. do 3 f_equal. lia.
  - destruct dd; [destruct A|]. destruct dd'; [|destruct B].
    destruct A as (b & Nb & A), B as (b' & Nb' & B).
    destruct (d && b) eqn:Q, (d && b') eqn:Q'.
    + destruct A as (j & -> & A), B as (j' & Ej' & B). discriminate.
    + destruct A as (j & -> & A). injection B as B. assert (j = i') by lia. subst.
      apply counterpart_true in A. destruct A as [_ A]. rewrite A in Nb'. injection Nb' as <-.
      destruct d; discriminate.
    + destruct B as (j & -> & B). injection A as A. assert (j = i) by lia. subst.
      apply counterpart_true in B. destruct B as [_ B]. rewrite B in Nb. injection Nb as <-.
      destruct d; discriminate.
    + rewrite A in B. discriminate.
  - exfalso. destruct dd; [destruct A|]. destruct A as (b & Nb & A), B as (o & No & B).
    destruct (d && b); [destruct A as (j & -> & A)|subst w];
      destruct o; [destruct dd'; destruct B as [_ B]; discriminate|destruct B as [B _]; discriminate|
                   destruct dd'; destruct B as [_ B]; discriminate|destruct B as [B _]; discriminate].
  - destruct dd; [|destruct A]. destruct dd'; [destruct B|].
    destruct A as (b & Nb & A), B as (b' & Nb' & B).
    destruct (d && b) eqn:Q, (d && b') eqn:Q'.
    + destruct A as (j & -> & A), B as (j' & Ej' & B). discriminate.
    + destruct A as (j & -> & A). injection B as B. assert (j = i') by lia. subst.
      apply counterpart_true in A. destruct A as [_ A]. rewrite A in Nb'. injection Nb' as <-.
      destruct d; discriminate.
    + destruct B as (j & -> & B). injection A as A. assert (j = i) by lia. subst.
      apply counterpart_true in B. destruct B as [_ B]. rewrite B in Nb. injection Nb as <-.
      destruct d; discriminate.
    + rewrite A in B. discriminate.
  - destruct dd; [|destruct A]. destruct dd'; [|destruct B].
    destruct A as (b & Nb & A), B as (b' & Nb' & B).
    destruct (d && b) eqn:Q, (d && b') eqn:Q'.
    + destruct A as (j & Ej & A), B as (j' & Ej' & B). rewrite Ej' in Ej. injection Ej as Ej.
      assert (j' = j) by lia. subst j'.
      rewrite (counterpart_fun _ _ _ _ _ (counterpart_sym _ _ _ _ A) (counterpart_sym _ _ _ _ B)). auto.
    + destruct A as (j & -> & A). discriminate B.
    + destruct B as (j & -> & B). discriminate A.
    + rewrite A in B. injection B as B. do 3 f_equal. lia.
  - exfalso. destruct dd; [|destruct A]. destruct A as (b & Nb & A), B as (o & No & B).
    destruct (d && b); [destruct A as (j & -> & A)|subst w];
      destruct o; [destruct dd'; destruct B as [_ B]; discriminate|destruct B as [B _]; discriminate|
                   destruct dd'; destruct B as [_ B]; discriminate|destruct B as [B _]; discriminate].
  - exfalso. destruct dd'; [destruct B|]. destruct B as (b & Nb & B), A as (o & No & A).
    destruct (d && b); [destruct B as (j & -> & B)|subst w];
      destruct o; [destruct dd; destruct A as [_ A]; discriminate|destruct A as [A _]; discriminate|
                   destruct dd; destruct A as [_ A]; discriminate|destruct A as [A _]; discriminate].
  - exfalso. destruct dd'; [|destruct B]. destruct B as (b & Nb & B), A as (o & No & A).
    destruct (d && b); [destruct B as (j & -> & B)|subst w];
      destruct o; [destruct dd; destruct A as [_ A]; discriminate|destruct A as [A _]; discriminate|
                   destruct dd; destruct A as [_ A]; discriminate|destruct A as [A _]; discriminate].
  - destruct A as (o & No & A), B as (o' & No' & B).
    assert (Ek : k = k').
    { destruct o; destruct o'; destruct dd, dd'; intuition congruence. }
    subst k'. rewrite (nodes_fun _ _ _ No' No) in B.
    destruct o as [gg d' n'|l ins outs].
    + destruct dd, dd'; destruct A as [La A], B as [Lb B]; rewrite A in B;
        pose proof (f_equal (fun w => fst (snd w)) B) as Q; apply (f_equal (fun w => snd (snd w))) in B;
        cbn [fst snd] in Q, B; assert (i = i') by lia; subst i'; auto.
      * exfalso. destruct d; simpl in Q; [|discriminate].
        rewrite (proj2 (Nat.ltb_lt _ _) Lb) in Q. discriminate.
      * exfalso. destruct d; simpl in Q; [|discriminate].
        rewrite (proj2 (Nat.ltb_lt _ _) La) in Q. discriminate.
    + destruct A as [-> _], B as [B _]. congruence.
Qed.

(** The map that the visits make. *)
Lemma map_corr : forall wl, Permutation wl (map fst (g_nodes g)) ->
  exists e, wire_body (fun b => b) d (g_ins g) (g_outs g) 0 0 n = Some e /\
    NoDup (map fst (entries Outp Inp e)) /\
    (forall k w, In w (map fst (entries Outp Inp e)) -> fst w <> Nd k) /\
    let M := entries Outp Inp e ++ flat_map (fun k => op_entries d n k (op_at (g_nodes g) k)) wl in
    NoDup (map fst M) /\ forall w w', In (w, w') M <-> corr w w'.
Proof.
  intros wl P. destruct (body_corr d n (g_ins g) (g_outs g) Rv) as (e & We & Ne & De & Te).
  exists e. split; auto.
  assert (Nwl : NoDup wl) by (apply (Permutation_NoDup (Permutation_sym P)), (wf_nodes g W)).
  assert (A : forall k w, In w (map fst (entries Outp Inp e)) -> fst w <> Nd k).
  { intros k w J. apply in_map_iff in J. destruct J as (x & <- & J).
    apply in_map_iff in J. destruct J as ([[[] i] q] & <- & J); simpl; discriminate. }
  split; [apply entries_keys; auto|]. split; auto.
  assert (NM : NoDup (map fst (entries Outp Inp e ++ flat_map (fun k => op_entries d n k (op_at (g_nodes g) k)) wl))).
  { rewrite map_app. apply NoDup_app_iff'. repeat split.
    - apply entries_keys; auto.
    - clear P. induction wl as [|k wl IH]; simpl; [constructor|]. inversion Nwl; subst.
      rewrite map_app. apply NoDup_app_iff'. repeat split; auto.
      + apply op_entries_keys.
      + intros x J J'. apply in_map_iff in J. destruct J as (y & <- & J).
        apply op_entries_node in J. destruct J as [J _].
        apply in_map_iff in J'. destruct J' as (z & E & J'). apply in_flat_map in J'.
        destruct J' as (k' & Ik & J'). apply op_entries_node in J'. destruct J' as [J' _].
        rewrite <- E in J. rewrite J in J'. injection J' as ->. auto.
    - intros x J J'. apply in_map_iff in J'. destruct J' as (z & E & J'). apply in_flat_map in J'.
      destruct J' as (k' & Ik & J'). apply op_entries_node in J'. destruct J' as [J' _].
      apply (A k' x J). congruence. }
  split; auto.
  assert (Only : forall w w', In (w, w') (entries Outp Inp e ++ flat_map (fun k => op_entries d n k (op_at (g_nodes g) k)) wl)
                   -> corr w w').
  { intros w w' J. apply in_app_or in J. destruct J as [J|J].
    - apply in_map_iff in J. destruct J as ([p p'] & E & J). injection E as <- <-.
      apply De in J. destruct p as [[] i]; simpl in *.
      + destruct J as (b & Nb & J). exists b. split; auto. destruct (d && b).
        * destruct J as (x & -> & J). exists x. auto.
        * subst. auto.
      + destruct J as (b & Nb & J). exists b. split; auto. destruct (d && b).
        * destruct J as (x & -> & J). exists x. auto.
        * subst. auto.
    - apply in_flat_map in J. destruct J as (k & Ik & J).
      assert (exists o, In (k, o) (g_nodes g)) as (o & No).
      { apply (Permutation_in _ P) in Ik. apply in_map_iff in Ik. destruct Ik as ([k' o] & E & Io).
        simpl in E. subst. eauto. }
      rewrite (op_at_in _ _ _ (wf_nodes g W) No) in J. destruct o as [gg d' n'|l ins outs].
      + simpl in J. unfold gate_entries in J. apply in_app_or in J.
        destruct J as [J|J]; apply in_map_iff in J; destruct J as (i & E & J); apply in_seq in J;
          injection E as <- <-; simpl; exists (Gate gg d' n'); split; auto; split; auto; lia.
      + simpl in J. destruct (copied_same d ins outs) as (m & Wm & Sm).
        { apply (Fl _ _ No). }
        rewrite Wm in J. apply in_map_iff in J. destruct J as ([p p'] & E & J). injection E as <- <-.
        apply Sm in J. destruct J as [J ->]. simpl. rewrite at_nodes_node. destruct p as [dd i].
        exists (Copied l ins outs). auto. }
  intros w w'. split; [apply Only|].
  intro C.
  assert (K : exists w'', In (w, w'') (entries Outp Inp e ++ flat_map (fun k => op_entries d n k (op_at (g_nodes g) k)) wl)).
  { destruct w as [[| |k] [dd i]]; simpl in C.
    - destruct dd; [destruct C|]. destruct C as (b & Nb & C).
      destruct (Te (Outgoing, i)) as (p' & J).
      { unfold in_ports; simpl. apply nth_error_Some. congruence. }
      eexists. apply in_or_app. left. apply in_map_iff. exists ((Outgoing, i), p'). split; [reflexivity|auto].
    - destruct dd; [|destruct C]. destruct C as (b & Nb & C).
      destruct (Te (Incoming, i)) as (p' & J).
      { unfold in_ports; simpl. apply nth_error_Some. congruence. }
      eexists. apply in_or_app. left. apply in_map_iff. exists ((Incoming, i), p'). split; [reflexivity|auto].
    - destruct C as (o & No & C).
      assert (Ik : In k wl) by (apply (Permutation_in _ (Permutation_sym P)); apply (in_map fst) in No; auto).
      assert (K : exists w'', In ((Nd k, (dd, i)), w'') (op_entries d n k o)).
      { destruct o as [gg d' n'|l ins outs]; simpl.
        - unfold gate_entries. destruct dd; destruct C as [L _]; eexists; apply in_or_app; [left|right];
            apply in_map_iff; exists i; (split; [reflexivity|apply in_seq; lia]).
        - destruct (copied_same d ins outs) as (m & Wm & Sm); [apply (Fl _ _ No)|]. rewrite Wm.
          exists (Nd k, (dd, i)). apply in_map_iff. exists ((dd, i), (dd, i)).
          split; [simpl; rewrite !at_nodes_node; auto|]. apply Sm. tauto. }
      destruct K as (w'' & K). exists w''. apply in_or_app. right. apply in_flat_map. exists k.
      rewrite (op_at_in _ _ _ (wf_nodes g W) No). auto. }
  destruct K as (w'' & K). rewrite (corr_fun w w' w'' C (Only _ _ K)). auto.
Qed.

(** ** The new region *)

Definition conn (e e' : (node * nat) * (node * nat)) : Prop :=
  exists b, source g (fst e) b /\ target g (snd e) b /\
    if d && b then corr (I (snd e)) (O (fst e')) /\ corr (O (fst e)) (I (snd e'))
    else corr (O (fst e)) (O (fst e')) /\ corr (I (snd e)) (I (snd e')).

(** Ports of the new region. *)
Definition new_target (t : node * nat) (b : bool) : Prop :=
  match fst t with
  | Inp => False
  | Outp => nth_error (repeat true n ++ g_outs g) (snd t) = Some b
  | Nd k => exists o, In (k, o) (g_nodes g) /\ nth_error (op_ins (new_op d n o)) (snd t) = Some b
  end.
Definition new_source (s : node * nat) (b : bool) : Prop :=
  match fst s with
  | Inp => nth_error (repeat true n ++ g_ins g) (snd s) = Some b
  | Outp => False
  | Nd k => exists o, In (k, o) (g_nodes g) /\ nth_error (op_outs (new_op d n o)) (snd s) = Some b
  end.

Lemma nth_repeat_app : forall (b : bool) m l i, nth_error (repeat b m ++ l) i =
  if i <? m then Some b else nth_error l (i - m).
Proof.
  intros b m l. induction m as [|m IH]; intros [|i]; simpl; auto.
  rewrite IH. reflexivity.
Qed.
Lemma nth_repeat' : forall (b : bool) m i, nth_error (repeat b m) i = if i <? m then Some b else None.
Proof.
  intros. rewrite <- (app_nil_r (repeat b m)), nth_repeat_app. destruct (i <? m); auto. destruct (i - m); auto.
Qed.
Lemma nth_shift : forall (b : bool) l i, nth_error (repeat b n ++ l) (n + i) = nth_error l i.
Proof.
  intros. rewrite nth_repeat_app. destruct (Nat.ltb_spec (n + i) n); [lia|]. f_equal. lia.
Qed.

Lemma corr_source : forall s b, source g s b ->
  if d && b then exists t', corr (O s) (I t') /\ new_target t' b
  else exists s', corr (O s) (O s') /\ new_source s' b.
Proof.
  intros [[| |k] i] b Q; unfold source in Q; simpl in Q; [|destruct Q|].
  - destruct (d && b) eqn:E.
    + destruct d eqn:Ed; [|discriminate]. destruct b; [|discriminate].
      destruct (body_corr true n (g_ins g) (g_outs g)) as (e & We & Ne & De & Te); [auto|].
      destruct (Te (Outgoing, i)) as (p' & J).
      { unfold in_ports; simpl. apply nth_error_Some. congruence. }
      apply De in J. destruct J as (b & Nb & J). rewrite Q in Nb. injection Nb as <-. simpl in J.
      destruct J as (j & -> & C). exists (Outp, n + j). split.
      * simpl. exists true. split; auto. rewrite Ed. simpl. exists j. auto.
      * unfold new_target. simpl. rewrite nth_shift. apply counterpart_true in C. tauto.
    + exists (Inp, n + i). split.
      * simpl. exists b. rewrite E. auto.
      * unfold new_source. simpl. rewrite nth_shift. auto.
  - destruct Q as (o & No & Q). destruct o as [gg d' n'|l ins outs].
    + destruct (Fl _ _ No) as (-> & -> & _). simpl in Q. rewrite nth_repeat' in Q.
      destruct (Nat.ltb_spec i (gop_qubits gg)); [|discriminate]. injection Q as <-.
      rewrite andb_true_r. destruct d eqn:Ed.
      * exists (Nd k, n + i). split.
        -- simpl. exists (Gate gg false 0). rewrite Ed. auto.
        -- unfold new_target. simpl. exists (Gate gg false 0). split; auto. simpl.
           rewrite nth_repeat_app. rewrite (proj2 (Nat.ltb_lt _ _)); [auto|lia].
      * exists (Nd k, n + i). split.
        -- simpl. exists (Gate gg false 0). rewrite Ed. auto.
        -- unfold new_source. simpl. exists (Gate gg false 0). split; auto. simpl.
           rewrite nth_repeat'. rewrite (proj2 (Nat.ltb_lt _ _)); [auto|lia].
    + assert (b = false).
      { apply (Fl _ _ No). apply in_or_app. right. simpl in Q. apply nth_error_In in Q. auto. }
      subst. rewrite andb_false_r. simpl in Q. exists (Nd k, i). split.
      * simpl. exists (Copied l ins outs). split; auto. split; auto. unfold in_ports. simpl.
        apply nth_error_Some. congruence.
      * unfold new_source. simpl. exists (Copied l ins outs). auto.
Qed.

Lemma corr_target : forall t b, target g t b ->
  if d && b then exists s', corr (I t) (O s') /\ new_source s' b
  else exists t', corr (I t) (I t') /\ new_target t' b.
Proof.
  intros [[| |k] i] b Q; unfold target in Q; simpl in Q; [destruct Q| |].
  - destruct (d && b) eqn:E.
    + destruct d eqn:Ed; [|discriminate]. destruct b; [|discriminate].
      destruct (body_corr true n (g_ins g) (g_outs g)) as (e & We & Ne & De & Te); [auto|].
      destruct (Te (Incoming, i)) as (p' & J).
      { unfold in_ports; simpl. apply nth_error_Some. congruence. }
      apply De in J. destruct J as (b & Nb & J). rewrite Q in Nb. injection Nb as <-. simpl in J.
      destruct J as (j & -> & C). exists (Inp, n + j). split.
      * simpl. exists true. split; auto. rewrite Ed. simpl. exists j. auto.
      * unfold new_source. simpl. rewrite nth_shift. apply counterpart_true in C. tauto.
    + exists (Outp, n + i). split.
      * simpl. exists b. rewrite E. auto.
      * unfold new_target. simpl. rewrite nth_shift. auto.
  - destruct Q as (o & No & Q). destruct o as [gg d' n'|l ins outs].
    + destruct (Fl _ _ No) as (-> & -> & _). simpl in Q. rewrite nth_repeat_app in Q.
      assert (Qb : b = (i <? gop_qubits gg) /\ i < gop_qubits gg + gop_angles gg).
      { destruct (Nat.ltb_spec i (gop_qubits gg)); [injection Q as <-; split; auto; lia|].
        rewrite nth_repeat' in Q. destruct (Nat.ltb_spec (i - gop_qubits gg) (gop_angles gg)); [|discriminate].
        injection Q as <-. split; auto; lia. }
      destruct Qb as [-> L].
      destruct (d && (i <? gop_qubits gg)) eqn:E.
      * exists (Nd k, n + i). split.
        -- simpl. exists (Gate gg false 0). rewrite E. auto.
        -- unfold new_source. simpl. exists (Gate gg false 0). split; auto. simpl.
           rewrite nth_repeat'. destruct d; [|discriminate]. simpl in E. rewrite E.
           apply Nat.ltb_lt in E. rewrite (proj2 (Nat.ltb_lt _ _)); [auto|lia].
      * exists (Nd k, n + i). split.
        -- simpl. exists (Gate gg false 0). rewrite E. auto.
        -- unfold new_target. simpl. exists (Gate gg false 0). split; auto. simpl.
           rewrite nth_repeat_app, nth_repeat'.
           destruct (Nat.ltb_spec (n + i) (n + gop_qubits gg)), (Nat.ltb_spec i (gop_qubits gg)); try lia; auto.
           rewrite (proj2 (Nat.ltb_lt _ _)); [auto|lia].
    + assert (b = false).
      { apply (Fl _ _ No). apply in_or_app. left. simpl in Q. apply nth_error_In in Q. auto. }
      subst. rewrite andb_false_r. simpl in Q. exists (Nd k, i). split.
      * simpl. exists (Copied l ins outs). split; auto. split; auto. unfold in_ports. simpl.
        apply nth_error_Some. congruence.
      * unfold new_target. simpl. exists (Copied l ins outs). auto.
Qed.

(** Ports of the controls. *)
Definition ctl_target (t : node * nat) : Prop :=
  snd t < n /\ match fst t with
               | Inp => False | Outp => True
               | Nd k => exists gg d' n', In (k, Gate gg d' n') (g_nodes g) end.
Definition ctl_source (s : node * nat) : Prop :=
  snd s < n /\ match fst s with
               | Inp => True | Outp => False
               | Nd k => exists gg d' n', In (k, Gate gg d' n') (g_nodes g) end.

Lemma target_onto : forall t' b, new_target t' b ->
  (ctl_target t' /\ b = true) \/
  if d && b then exists s, source g s b /\ corr (O s) (I t')
  else exists t, target g t b /\ corr (I t) (I t').
Proof.
  intros [[| |k] i] b Q; unfold new_target in Q; simpl in Q; [destruct Q| |].
  - rewrite nth_repeat_app in Q. destruct (Nat.ltb_spec i n) as [L|L].
    + left. injection Q as <-. repeat split; auto.
    + right. destruct (d && b) eqn:E.
      * assert (S0 : target g (Outp, i - n) b) by exact Q.
        pose proof (corr_target _ _ S0) as C. rewrite E in C. destruct C as (s' & C & Ns).
        simpl in C. destruct C as (b' & Nb & C). rewrite Q in Nb. injection Nb as <-. rewrite E in C.
        destruct C as (x & Es & C).
        exists (Inp, x). destruct (counterpart_true _ _ _ _ C) as [C1 C2].
        assert (b = true) by (destruct b, d; auto; discriminate). subst b.
        split; [exact C2|]. simpl. exists true. split; auto. rewrite E.
        exists (i - n). split; [|apply counterpart_sym; auto]. unfold I. simpl. do 3 f_equal. lia.
      * exists (Outp, i - n). split; [exact Q|]. simpl. exists b. split; auto. rewrite E.
        unfold I. simpl. do 2 f_equal. lia.
  - destruct Q as (o & No & Q). destruct o as [gg d' n'|l ins outs].
    + destruct (Fl _ _ No) as (-> & -> & _). simpl in Q. rewrite nth_repeat_app, nth_repeat' in Q.
      destruct (Nat.ltb_spec i n) as [L|L].
      * left. rewrite (proj2 (Nat.ltb_lt _ _)) in Q by lia. injection Q as <-. repeat split; auto; simpl; eauto.
      * right. assert (exists i0, i = n + i0) as (i0 & ->) by (exists (i - n); lia).
        destruct (Nat.ltb_spec (n + i0) (n + gop_qubits gg)) as [L2|L2].
        -- injection Q as <-. rewrite andb_true_r. destruct d eqn:Ed.
           ++ exists (Nd k, i0). split.
              ** unfold source. simpl. exists (Gate gg false 0). split; auto. simpl. rewrite nth_repeat'.
                 rewrite (proj2 (Nat.ltb_lt _ _)); [auto|lia].
              ** simpl. exists (Gate gg false 0). rewrite Ed. repeat split; auto; lia.
           ++ exists (Nd k, i0). split.
              ** unfold target. simpl. exists (Gate gg false 0). split; auto. simpl. rewrite nth_repeat_app.
                 rewrite (proj2 (Nat.ltb_lt _ _)); [auto|lia].
              ** simpl. exists (Gate gg false 0). rewrite Ed. repeat split; auto; lia.
        -- destruct (Nat.ltb_spec (n + i0 - (n + gop_qubits gg)) (gop_angles gg)) as [L3|L3]; [|discriminate].
           injection Q as <-. rewrite andb_false_r. exists (Nd k, i0). split.
           ++ unfold target. simpl. exists (Gate gg false 0). split; auto. simpl. rewrite nth_repeat_app, nth_repeat'.
              destruct (Nat.ltb_spec i0 (gop_qubits gg)); [lia|].
              rewrite (proj2 (Nat.ltb_lt _ _)); [auto|lia].
           ++ simpl. exists (Gate gg false 0). split; auto. split; [lia|].
              destruct (Nat.ltb_spec i0 (gop_qubits gg)); [lia|]. rewrite andb_false_r. auto.
    + right. assert (b = false).
      { apply (Fl _ _ No). apply in_or_app. left. simpl in Q. apply nth_error_In in Q. auto. }
      subst. rewrite andb_false_r. simpl in Q. exists (Nd k, i). split.
      * unfold target. simpl. exists (Copied l ins outs). auto.
      * simpl. exists (Copied l ins outs). split; auto. split; auto. unfold in_ports. simpl.
        apply nth_error_Some. congruence.
Qed.

Lemma source_onto : forall s' b, new_source s' b ->
  (ctl_source s' /\ b = true) \/
  if d && b then exists t, target g t b /\ corr (I t) (O s')
  else exists s, source g s b /\ corr (O s) (O s').
Proof.
  intros [[| |k] i] b Q; unfold new_source in Q; simpl in Q; [|destruct Q|].
  - rewrite nth_repeat_app in Q. destruct (Nat.ltb_spec i n) as [L|L].
    + left. injection Q as <-. repeat split; auto.
    + right. destruct (d && b) eqn:E.
      * assert (S0 : source g (Inp, i - n) b) by exact Q.
        pose proof (corr_source _ _ S0) as C. rewrite E in C. destruct C as (s' & C & Ns).
        simpl in C. destruct C as (b' & Nb & C). rewrite Q in Nb. injection Nb as <-. rewrite E in C.
        destruct C as (x & Es & C).
        exists (Outp, x). destruct (counterpart_true _ _ _ _ C) as [C1 C2].
        assert (b = true) by (destruct b, d; auto; discriminate). subst b.
        split; [exact C2|]. simpl. exists true. split; auto. rewrite E.
        exists (i - n). split; [|apply counterpart_sym; auto]. unfold O. simpl. do 3 f_equal. lia.
      * exists (Inp, i - n). split; [exact Q|]. simpl. exists b. split; auto. rewrite E.
        unfold O. simpl. do 2 f_equal. lia.
  - destruct Q as (o & No & Q). destruct o as [gg d' n'|l ins outs].
    + destruct (Fl _ _ No) as (-> & -> & _). simpl in Q. rewrite nth_repeat' in Q.
      destruct (Nat.ltb_spec i n) as [L|L].
      * left. rewrite (proj2 (Nat.ltb_lt _ _)) in Q by lia. injection Q as <-. repeat split; auto; simpl; eauto.
      * right. assert (exists i0, i = n + i0) as (i0 & ->) by (exists (i - n); lia).
        destruct (Nat.ltb_spec (n + i0) (n + gop_qubits gg)) as [L2|L2]; [|discriminate].
        injection Q as <-. rewrite andb_true_r. destruct d eqn:Ed.
        -- exists (Nd k, i0). split.
           ++ unfold target. simpl. exists (Gate gg false 0). split; auto. simpl. rewrite nth_repeat_app.
              rewrite (proj2 (Nat.ltb_lt _ _)); [auto|lia].
           ++ simpl. exists (Gate gg false 0). rewrite Ed. split; auto. split; [lia|].
              rewrite (proj2 (Nat.ltb_lt i0 (gop_qubits gg))) by lia. auto.
        -- exists (Nd k, i0). split.
           ++ unfold source. simpl. exists (Gate gg false 0). split; auto. simpl. rewrite nth_repeat'.
              rewrite (proj2 (Nat.ltb_lt _ _)); [auto|lia].
           ++ simpl. exists (Gate gg false 0). rewrite Ed. repeat split; auto; lia.
    + right. assert (b = false).
      { apply (Fl _ _ No). apply in_or_app. right. simpl in Q. apply nth_error_In in Q. auto. }
      subst. rewrite andb_false_r. simpl in Q. exists (Nd k, i). split.
      * unfold source. simpl. exists (Copied l ins outs). auto.
      * simpl. exists (Copied l ins outs). split; auto. split; auto. unfold in_ports. simpl.
        apply nth_error_Some. congruence.
Qed.

(** Images of old ports are not ports of the controls. *)
Lemma corr_not_ctl : forall w w', corr w w' -> 
  (forall t', w' = I t' -> ~ ctl_target t') /\ (forall s', w' = O s' -> ~ ctl_source s').
Proof.
  intros [[| |k] [dd i]] w' C; simpl in C.
  - destruct dd; [destruct C|]. destruct C as (b & _ & C).
    destruct (d && b); [destruct C as (j & -> & _)|subst w'];
      split; intros [x y] E [L _]; unfold I, O in E; simpl in E, L; injection E; intros; subst; try discriminate; lia.
  - destruct dd; [|destruct C]. destruct C as (b & _ & C).
    destruct (d && b); [destruct C as (j & -> & _)|subst w'];
      split; intros [x y] E [L _]; unfold I, O in E; simpl in E, L; injection E; intros; subst; try discriminate; lia.
  - destruct C as (o & No & C). destruct o as [gg d' n'|l ins outs].
    + destruct dd; destruct C as [_ ->]; split; intros [x y] E [L _]; unfold I, O in E; simpl in E, L;
        injection E; intros; subst; lia.
    + destruct C as [-> _]; split; intros [x y] E [L T]; unfold I, O in E; simpl in E, L, T;
        injection E; intros; subst; destruct T as (gg & d' & n' & T); pose proof (nodes_fun _ _ _ T No); discriminate.
Qed.
End Region.
