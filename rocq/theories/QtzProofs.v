(** Proofs about the loader for circuits written by quartz. *)
From Coq Require Import String List Bool Arith Lia FinFun.
From Verif Require Import QtzModel QtzSpec.
Import ListNotations.

Lemma name_eqb_iff : forall a b, name_eqb a b = true <-> a = b.
Proof. intros [i|i|i] [j|j|j]; simpl; try (split; congruence); rewrite Nat.eqb_eq; split; congruence. Qed.
Lemma name_eqb_refl : forall a, name_eqb a a = true.
Proof. intros a. now apply name_eqb_iff. Qed.
Lemma name_eqb_neq : forall a b, a <> b -> name_eqb a b = false.
Proof. intros a b N. destruct (name_eqb a b) eqn:E; [apply name_eqb_iff in E; contradiction|reflexivity]. Qed.

Lemma all_some_f2 : forall {A B : Type} (f : A -> option B) l r, Forall2 (fun x y => f x = Some y) l r -> all_some (map f l) = Some r.
Proof. intros A B f l r H. induction H as [|x y l r E H IH]; [reflexivity|]. simpl. rewrite E, IH. reflexivity. Qed.
Lemma all_some_inv : forall {A B : Type} (f : A -> option B) l r, all_some (map f l) = Some r -> Forall2 (fun x y => f x = Some y) l r.
Proof.
  intros A B f. induction l as [|x l IH]; intros r E; simpl in E; [injection E as <-; constructor|].
  destruct (f x) as [y|] eqn:F; [|discriminate]. destruct (all_some (map f l)) as [r'|]; [|discriminate]. injection E as <-. constructor; auto.
Qed.

(** ** Lists with elements replaced *)
Fixpoint set_list {A : Type} (l : list A) (qs : list nat) (xs : list A) : list A :=
  match qs, xs with q :: qs, x :: xs => set_list (set_nth l q x) qs xs | _, _ => l end.
Lemma set_nth_length : forall {A : Type} (l : list A) i x, length (set_nth l i x) = length l.
Proof. intros A. induction l as [|y l IH]; intros [|i] x; simpl; auto. Qed.
Lemma set_nth_same : forall {A : Type} (l : list A) i x d, i < length l -> nth i (set_nth l i x) d = x.
Proof. intros A. induction l as [|y l IH]; intros [|i] x d L; simpl in *; try lia; [reflexivity|]. apply IH. lia. Qed.
Lemma set_nth_other : forall {A : Type} (l : list A) i j x d, i <> j -> nth i (set_nth l j x) d = nth i l d.
Proof. intros A. induction l as [|y l IH]; intros [|i] [|j] x d L; simpl in *; try lia; auto. Qed.
Lemma set_list_length : forall {A : Type} qs (xs l : list A), length (set_list l qs xs) = length l.
Proof. intros A. induction qs as [|q qs IH]; intros [|x xs] l; simpl; auto. rewrite IH. apply set_nth_length. Qed.
Lemma set_list_other : forall {A : Type} qs (xs l : list A) i d, ~ In i qs -> nth i (set_list l qs xs) d = nth i l d.
Proof. intros A. induction qs as [|q qs IH]; intros [|x xs] l i d NI; simpl in *; auto. rewrite IH by tauto. apply set_nth_other. intros ->. tauto. Qed.
Lemma set_list_same : forall {A : Type} qs (xs l : list A) k d q, NoDup qs -> Forall (fun q => q < length l) qs -> length xs = length qs -> nth_error qs k = Some q -> nth q (set_list l qs xs) d = nth k xs d.
Proof.
  intros A. induction qs as [|q0 qs IH]; intros [|x xs] l k d q ND F L E; simpl in *; try discriminate; [destruct k; discriminate|].
  inversion ND; subst. inversion F; subst. destruct k as [|k]; simpl in E.
  - injection E as <-. rewrite set_list_other by assumption. now apply set_nth_same.
  - apply IH; auto. rewrite set_nth_length. assumption.
Qed.
Lemma count_set : forall (l : list wire) i x w d, i < length l ->
  count_occ wire_eq_dec (set_nth l i x) w + count_occ wire_eq_dec [nth i l d] w = count_occ wire_eq_dec l w + count_occ wire_eq_dec [x] w.
Proof.
  induction l as [|y l IH]; intros [|i] x w d L; simpl in *; try lia.
  - destruct (wire_eq_dec x w), (wire_eq_dec y w); lia.
  - specialize (IH i x w d). simpl in IH. destruct (wire_eq_dec y w), (wire_eq_dec x w), (wire_eq_dec (nth i l d) w); lia.
Qed.
Lemma count_set_list : forall qs (xs l : list wire) w d, NoDup qs -> Forall (fun q => q < length l) qs -> length xs = length qs ->
  count_occ wire_eq_dec (set_list l qs xs) w + count_occ wire_eq_dec (map (fun q => nth q l d) qs) w = count_occ wire_eq_dec l w + count_occ wire_eq_dec xs w.
Proof.
  induction qs as [|q qs IH]; intros [|x xs] l w d ND F L; try discriminate; [reflexivity|]. inversion ND; subst. inversion F; subst. cbn [set_list map].
  assert (F2 : Forall (fun q0 => q0 < length (set_nth l q x)) qs) by (rewrite set_nth_length; assumption).
  specialize (IH xs (set_nth l q x) w d H2 F2 ltac:(simpl in L; lia)).
  assert (E : map (fun q0 => nth q0 (set_nth l q x) d) qs = map (fun q0 => nth q0 l d) qs).
  { apply map_ext_in. intros i J. apply set_nth_other. intros ->. contradiction. }
  rewrite E in IH. pose proof (count_set l q x w d H3) as C.
  change (x :: xs) with ([x] ++ xs). change (nth q l d :: map (fun q0 => nth q0 l d) qs) with ([nth q l d] ++ map (fun q0 => nth q0 l d) qs). rewrite !count_occ_app. lia.
Qed.
Lemma place_linear : forall qs us ws outs, length outs = length qs -> place (map Linear qs ++ us) ws outs = (set_list ws qs outs, []).
Proof. induction qs as [|q qs IH]; intros us ws [|w outs] L; try discriminate; [reflexivity|]. simpl. apply IH. simpl in L. lia. Qed.

(** ** Kinds of wires *)
Definition mk (n p : nat) (nodes : list (op * list wire)) (outs : list wire) : circuit := {| c_qubits := n; c_params := p; c_nodes := nodes; c_outputs := outs |}.
Lemma kind_more : forall n p nodes outs outs' x w k, wire_kind (mk n p nodes outs) w = Some k -> wire_kind (mk n p (nodes ++ [x]) outs') w = Some k.
Proof.
  intros n p nodes outs outs' x [i|m q] k E; [exact E|]. simpl in *. destruct (nth_error nodes m) as [[o ws]|] eqn:J; [|discriminate].
  rewrite nth_error_app1; [rewrite J; exact E|]. apply nth_error_Some. congruence.
Qed.
Lemma kind_back : forall n p nodes outs outs' x w k, wire_kind (mk n p (nodes ++ [x]) outs') w = Some k ->
  wire_kind (mk n p nodes outs) w = Some k \/ exists q, w = WOut (length nodes) q /\ nth_error (sig_out (fst x)) q = Some k.
Proof.
  intros n p nodes outs outs' x [i|m q] k E; [left; exact E|]. simpl in *. destruct (Nat.lt_ge_cases m (length nodes)) as [L|L].
  - rewrite nth_error_app1 in E by exact L. left. exact E.
  - rewrite nth_error_app2 in E by exact L. destruct (m - length nodes) as [|j] eqn:D; simpl in E; [|destruct j; discriminate].
    right. exists q. split; [f_equal; lia|]. destruct x as [o ws]. exact E.
Qed.
Lemma kind_new : forall n p nodes outs o ws q, wire_kind (mk n p (nodes ++ [(o, ws)]) outs) (WOut (length nodes) q) = nth_error (sig_out o) q.
Proof. intros. simpl. rewrite nth_error_app2, Nat.sub_diag by lia. reflexivity. Qed.
Lemma kind_old_none : forall n p nodes outs q, wire_kind (mk n p nodes outs) (WOut (length nodes) q) = None.
Proof. intros. simpl. assert (E : nth_error nodes (length nodes) = None) by (apply nth_error_None; lia). now rewrite E. Qed.
Lemma kind_outs : forall n p nodes outs outs' w, wire_kind (mk n p nodes outs) w = wire_kind (mk n p nodes outs') w.
Proof. intros n p nodes outs outs' [i|m q]; reflexivity. Qed.

(** ** The invariant of loading *)
Section Load.
Variable nq np : nat.
Definition kind_in (s : state) (w : wire) : option kind := wire_kind (mk nq np (built s) []) w.
Record stat (s : state) (scope : list name) : Prop := {
  t_length : length (wires s) = nq;
  t_qubit : forall i, i < nq -> get (units s) (Q i) = Some (Linear i);
  t_param : forall x, In x scope -> param_name nq x /\ exists w, get (units s) x = Some (Wire w) /\ kind_in s w = Some Rotation;
  t_nodes : forall o ws, In (o, ws) (built s) -> map (kind_in s) ws = map Some (sig_in o);
  t_wires : Forall (fun w => kind_in s w = Some Qubit) (wires s);
  t_once : forall w, kind_in s w = Some Qubit -> count_occ wire_eq_dec (concat (map snd (built s))) w + count_occ wire_eq_dec (wires s) w = 1;
}.
Record dyn {V : Type} (dflt : V) (sem : op -> list V -> list V) (inputs : list V) (s : state) (scope : list name) (e : env) : Prop := {
  y_qubit : forall i, i < nq -> e (Q i) = Some (value dflt inputs (values dflt sem inputs (built s)) (nth i (wires s) (WIn 0)));
  y_param : forall x w, In x scope -> get (units s) x = Some (Wire w) -> e x = Some (value dflt inputs (values dflt sem inputs (built s)) w);
}.
Lemma values_app : forall {V : Type} dflt (sem : op -> list V -> list V) inputs nodes o ws,
  values dflt sem inputs (nodes ++ [(o, ws)]) = values dflt sem inputs nodes ++ [sem o (map (value dflt inputs (values dflt sem inputs nodes)) ws)].
Proof. intros. unfold values. rewrite fold_left_app. reflexivity. Qed.
Lemma values_length : forall {V : Type} dflt (sem : op -> list V -> list V) inputs nodes, length (values dflt sem inputs nodes) = length nodes.
Proof.
  intros V dflt sem inputs nodes. induction nodes as [|(o, ws) nodes IH] using rev_ind; [reflexivity|]. rewrite values_app, !app_length, IH. reflexivity.
Qed.
Lemma value_more : forall {V : Type} dflt (sem : op -> list V -> list V) inputs s w k x, kind_in s w = Some k ->
  value dflt inputs (values dflt sem inputs (built s ++ [x])) w = value dflt inputs (values dflt sem inputs (built s)) w.
Proof.
  intros V dflt sem inputs s [i|m q] k (o, ws) E; [reflexivity|]. rewrite values_app. simpl. f_equal. apply app_nth1. rewrite values_length.
  unfold kind_in in E. simpl in E. destruct (nth_error (built s) m) eqn:J; [|discriminate]. apply nth_error_Some. congruence.
Qed.
Lemma value_new : forall {V : Type} dflt (sem : op -> list V -> list V) inputs nodes o ws q,
  value dflt inputs (values dflt sem inputs (nodes ++ [(o, ws)])) (WOut (length nodes) q) = nth q (sem o (map (value dflt inputs (values dflt sem inputs nodes)) ws)) dflt.
Proof.
  intros. rewrite values_app. simpl. rewrite app_nth2; rewrite values_length; [|lia]. rewrite Nat.sub_diag. reflexivity.
Qed.
Lemma assign_other : forall {V : Type} xs (vs : list V) e y, ~ In y xs -> assign e xs vs y = e y.
Proof.
  intros V. induction xs as [|x xs IH]; intros [|v vs] e y NI; try reflexivity. simpl. rewrite IH by (intros J; apply NI; right; exact J). rewrite name_eqb_neq; [reflexivity|]. intros ->. apply NI. left; reflexivity.
Qed.
Lemma assign_at : forall {V : Type} xs (vs : list V) e k x d, NoDup xs -> length vs = length xs -> nth_error xs k = Some x -> assign e xs vs x = Some (nth k vs d).
Proof.
  intros V. induction xs as [|x0 xs IH]; intros [|v vs] e k x d ND L E; try discriminate; [destruct k; discriminate|]. inversion ND; subst. destruct k as [|k]; simpl in E.
  - injection E as <-. simpl. rewrite assign_other by assumption. now rewrite name_eqb_refl.
  - simpl. apply (IH vs _ k x d); auto.
Qed.
Lemma nodup_q : forall qs, NoDup qs -> NoDup (map Q qs).
Proof. intros qs ND. induction ND as [|q qs NI ND IH]; simpl; constructor; auto. intros J. apply in_map_iff in J as (i & E & J). injection E as ->. contradiction. Qed.
Lemma count_none : forall s ws w, kind_in s w = None -> Forall (fun x => exists k, kind_in s x = Some k) ws -> count_occ wire_eq_dec ws w = 0.
Proof. intros s ws w E F. apply count_occ_not_In. intros J. rewrite Forall_forall in F. destruct (F w J) as (k & K). congruence. Qed.
Lemma used_known : forall s scope, stat s scope -> Forall (fun x => exists k, kind_in s x = Some k) (concat (map snd (built s))).
Proof.
  intros s scope T. apply Forall_forall. intros w J. apply in_concat in J as (l & A & B). apply in_map_iff in A as ((o, ws) & <- & C). simpl in B.
  pose proof (t_nodes _ _ T o ws C) as K. apply (in_map (kind_in s)) in B. rewrite K in B. apply in_map_iff in B as (k & <- & _). eauto.
Qed.
Lemma seq_nth_error : forall n start k, k < n -> nth_error (seq start n) k = Some (start + k).
Proof. intros n start k L. rewrite nth_error_nth' with (d := 0) by (now rewrite seq_length). now rewrite seq_nth. Qed.
Lemma map_app_some : forall (A B : Type) (f : A -> option B) ws k, (forall w, In w ws -> f w = Some k) -> map f ws = repeat (Some k) (length ws).
Proof. intros A B f. induction ws as [|w ws IH]; intros k H; [reflexivity|]. simpl. rewrite (H w (or_introl eq_refl)). f_equal. apply IH. intros x J. apply H. right; exact J. Qed.
Lemma map_repeat' : forall (A B : Type) (f : A -> B) x n, map f (repeat x n) = repeat (f x) n.
Proof. intros A B f x. induction n; simpl; congruence. Qed.

Lemma map_op_name : forall o, map_op (op_name o) = Some o.
Proof. now destruct o. Qed.
Lemma named_name : forall o, named (op_name o) = Some o.
Proof. now destruct o. Qed.

Lemma step_gate : forall s scope c o qs ps,
  stat s scope -> opstr c = op_name o -> sig_in o = repeat Qubit (length qs) ++ repeat Rotation (length ps) -> sig_out o = repeat Qubit (length qs) ->
  op_inputs c = map Q qs ++ ps -> op_outputs c = map Q qs -> NoDup qs -> Forall (fun q => q < nq) qs -> Forall (fun p => In p scope) ps ->
  exists s', load_op s c = Some s' /\ stat s' scope /\
    forall (V : Type) (dflt : V) sem inputs e, arity sem -> dyn dflt sem inputs s scope e -> exists e', run_op sem e c = Some e' /\ dyn dflt sem inputs s' scope e'.
Proof.
  intros s scope c o qs ps T MN SI SO IN OUT ND FQ FP.
  assert (PW : exists pws, Forall2 (fun p w => get (units s) p = Some (Wire w)) ps pws /\ Forall (fun w => kind_in s w = Some Rotation) pws).
  { clear IN SI. induction FP as [|p ps J FP IH]; [exists []; split; constructor|]. destruct IH as (pws & A & B). destruct (proj2 (t_param _ _ T p J)) as (w & C & D). exists (w :: pws). split; constructor; auto. }
  destruct PW as (pws & PG & PK).
  assert (MO : map_op (opstr c) = Some o) by (rewrite MN; apply map_op_name).
  pose (qws := map (fun q => nth q (wires s) (WIn 0)) qs).
  pose (outs := map (WOut (length (built s))) (seq 0 (length qs))).
  pose (s' := {| units := units s; wires := set_list (wires s) qs outs; built := built s ++ [(o, qws ++ pws)] |}).
  assert (LO : length outs = length qs) by (unfold outs; now rewrite map_length, seq_length).
  assert (LP : length pws = length ps) by (clear - PG; induction PG; simpl; congruence).
  assert (FW : Forall (fun q => q < length (wires s)) qs) by (rewrite (t_length _ _ T); exact FQ).
  assert (US : all_some (map (get (units s)) (op_inputs c)) = Some (map Linear qs ++ map Wire pws)).
  { apply all_some_f2. rewrite IN. apply Forall2_app.
    - clear - FQ T. induction FQ as [|q qs L F IH]; constructor; auto. apply (t_qubit _ _ T q L).
    - clear - PG. induction PG; constructor; auto. }
  assert (WS : all_some (map (unit_wire (wires s)) (map Linear qs ++ map Wire pws)) = Some (qws ++ pws)).
  { apply all_some_f2. apply Forall2_app.
    - unfold qws. clear - FW. induction FW as [|q qs L F IH]; constructor; auto. simpl. now apply nth_error_nth'.
    - clear. induction pws; constructor; auto. }
  assert (LD : load_op s c = Some s').
  { unfold load_op. rewrite MO, US. unfold append. rewrite WS. rewrite SO, repeat_length. fold outs. rewrite place_linear by exact LO. simpl. rewrite combine_nil. reflexivity. }
  assert (NEW : forall q, q < length qs -> kind_in s' (WOut (length (built s)) q) = Some Qubit).
  { intros q L. unfold kind_in, s'. simpl built. rewrite kind_new, SO. rewrite nth_error_repeat by exact L. reflexivity. }
  assert (MORE : forall w k, kind_in s w = Some k -> kind_in s' w = Some k) by (intros w k E; unfold kind_in, s' in *; simpl built; eapply kind_more; exact E).
  assert (QK : Forall (fun w => kind_in s w = Some Qubit) qws).
  { unfold qws. apply Forall_forall. intros w J. apply in_map_iff in J as (q & <- & J). rewrite Forall_forall in FW. specialize (FW q J). pose proof (t_wires _ _ T) as TW. rewrite Forall_forall in TW. apply TW. now apply nth_In. }
  exists s'. split; [exact LD|]. split; [constructor|].
  - unfold s'. simpl. rewrite set_list_length. apply (t_length _ _ T).
  - apply (t_qubit _ _ T).
  - intros x J. destruct (t_param _ _ T x J) as (A & w & B & C). split; [exact A|]. exists w. split; [exact B|auto].
  - intros o' ws J. unfold s' in J. simpl in J. apply in_app_iff in J as [J|[J|[]]].
    + pose proof (t_nodes _ _ T o' ws J) as K. rewrite <- K. apply map_ext_in. intros w JW. apply (in_map (kind_in s)) in JW. rewrite K in JW. apply in_map_iff in JW as (k & E & _).  rewrite <- E. apply MORE. congruence.
    + injection J as <- <-. rewrite SI, !map_app, !map_repeat'. f_equal.
      * rewrite (map_app_some _ _ _ _ Qubit); [unfold qws; now rewrite map_length|]. intros w J. apply MORE. rewrite Forall_forall in QK. auto.
      * rewrite (map_app_some _ _ _ _ Rotation); [now rewrite LP|]. intros w J. apply MORE. rewrite Forall_forall in PK. auto.
  - apply Forall_forall. intros w J. unfold s' in J. simpl in J. apply (In_nth _ _ (WIn 0)) in J as (i & L & <-). rewrite set_list_length in L.
    destruct (in_dec Nat.eq_dec i qs) as [JI|JI].
    + apply In_nth_error in JI as (k & K). rewrite (set_list_same qs outs (wires s) k (WIn 0) i ND FW LO K).
      assert (KL : k < length qs) by (apply nth_error_Some; congruence). unfold outs. rewrite nth_indep with (d' := WOut (length (built s)) 0) by (rewrite map_length, seq_length; exact KL). rewrite map_nth, seq_nth by exact KL. apply NEW. exact KL.
    + rewrite set_list_other by exact JI. apply MORE. pose proof (t_wires _ _ T) as TW. rewrite Forall_forall in TW. apply TW. now apply nth_In.
  - intros w K. unfold s'. simpl built. simpl wires. rewrite map_app, concat_app, count_occ_app. simpl. rewrite app_nil_r, count_occ_app.
    pose proof (count_set_list qs outs (wires s) w (WIn 0) ND FW LO) as C. fold qws in C.
    unfold kind_in, s' in K. simpl built in K. apply (kind_back nq np (built s) [] []) in K as [K|(q & -> & K)].
    + pose proof (t_once _ _ T w K) as O. fold (kind_in s w) in K.
      assert (P0 : count_occ wire_eq_dec pws w = 0) by (apply count_occ_not_In; intros J; rewrite Forall_forall in PK; specialize (PK w J); congruence).
      assert (O0 : count_occ wire_eq_dec outs w = 0).
      { apply count_occ_not_In. intros J. unfold outs in J. apply in_map_iff in J as (q & <- & _). unfold kind_in in K. rewrite kind_old_none in K. discriminate. }
      lia.
    + assert (NN : kind_in s (WOut (length (built s)) q) = None) by apply kind_old_none.
      pose proof (count_none s _ _ NN (used_known _ _ T)) as C0.
      assert (C1 : count_occ wire_eq_dec pws (WOut (length (built s)) q) = 0) by (apply (count_none s _ _ NN); eapply Forall_impl; [intros z KK; exists Rotation; exact KK|exact PK]).
      assert (C2 : count_occ wire_eq_dec (wires s) (WOut (length (built s)) q) = 0) by (apply (count_none s _ _ NN); eapply Forall_impl; [intros z KK; exists Qubit; exact KK|apply (t_wires _ _ T)]).
      assert (C3 : count_occ wire_eq_dec outs (WOut (length (built s)) q) = 1).
      { unfold outs. simpl in K. rewrite SO in K. assert (L : q < length qs) by (rewrite <- (repeat_length Qubit (length qs)); apply nth_error_Some; congruence).
        apply NoDup_count_occ'; [|apply in_map_iff; exists q; split; [reflexivity|apply in_seq; lia]].
        apply Injective_map_NoDup; [intros a b E; congruence|apply seq_NoDup]. }
      lia.
  - intros V dflt sem inputs e AR [YQ YP].
    assert (VS : all_some (map e (op_inputs c)) = Some (map (value dflt inputs (values dflt sem inputs (built s))) (qws ++ pws))).
    { apply all_some_f2. rewrite IN, map_app. apply Forall2_app.
      - unfold qws. clear - YQ FQ. induction FQ as [|q qs L F IH]; constructor; auto.
      - clear - YP PG FP. induction PG as [|p w ps pws G PG IH]; simpl; constructor; inversion FP; subst; auto. }
    unfold run_op. rewrite MN, named_name, VS. eexists. split; [reflexivity|]. rewrite OUT.
    set (args := map (value dflt inputs (values dflt sem inputs (built s))) (qws ++ pws)) in *.
    assert (LS : length (sem o args) = length (map Q qs)) by (rewrite AR, SO, repeat_length, map_length; reflexivity).
    constructor.
    + intros i L. unfold s'. simpl wires. simpl built. destruct (in_dec Nat.eq_dec i qs) as [JI|JI].
      * apply In_nth_error in JI as (k & K). assert (KL : k < length qs) by (apply nth_error_Some; congruence).
        rewrite (assign_at (map Q qs) (sem o args) e k (Q i) dflt (nodup_q qs ND) LS (map_nth_error Q k qs K)).
        rewrite (set_list_same qs outs (wires s) k (WIn 0) i ND FW LO K). unfold outs. rewrite nth_indep with (d' := WOut (length (built s)) 0) by (rewrite map_length, seq_length; exact KL). rewrite map_nth, seq_nth by exact KL.
        cbn [Nat.add]. rewrite value_new. reflexivity.
      * rewrite assign_other by (intros J; apply in_map_iff in J as (j & E & J); injection E as ->; contradiction). rewrite set_list_other by exact JI.
        rewrite (value_more dflt sem inputs s _ Qubit); [apply YQ, L|]. pose proof (t_wires _ _ T) as TW. rewrite Forall_forall in TW. apply TW. apply nth_In. rewrite (t_length _ _ T). exact L.
    + intros x w J G. unfold s' in *. simpl units in G. simpl built. destruct (t_param _ _ T x J) as (PN & w2 & G2 & K). rewrite G in G2. injection G2 as <-.
      rewrite assign_other; [|intros JJ; apply in_map_iff in JJ as (j & E & JJ); rewrite Forall_forall in FQ; apply (PN j (FQ j JJ)); congruence].
      rewrite (value_more dflt sem inputs s w Rotation _ K). eapply YP; eauto.
Qed.
Lemma step_add : forall s scope c a b x,
  stat s scope -> opstr c = "add"%string -> op_inputs c = [a; b] -> op_outputs c = [x] -> In a scope -> In b scope -> param_name nq x ->
  exists s', load_op s c = Some s' /\ stat s' (x :: scope) /\
    forall (V : Type) (dflt : V) sem inputs e, arity sem -> dyn dflt sem inputs s scope e -> exists e', run_op sem e c = Some e' /\ dyn dflt sem inputs s' (x :: scope) e'.
Proof.
  intros s scope c a b x T OS IN OUT JA JB PX.
  destruct (t_param _ _ T a JA) as (_ & wa & GA & KA). destruct (t_param _ _ T b JB) as (_ & wb & GB & KB).
  pose (new := WOut (length (built s)) 0).
  pose (s' := {| units := (x, Wire new) :: units s; wires := wires s; built := built s ++ [(Oradd, [wa; wb])] |}).
  assert (LD : load_op s c = Some s') by (unfold load_op; rewrite OS, IN; simpl; rewrite GA, GB, OUT; reflexivity).
  assert (MORE : forall w k, kind_in s w = Some k -> kind_in s' w = Some k) by (intros w k E; unfold kind_in, s' in *; simpl built; eapply kind_more; exact E).
  assert (KN : kind_in s' new = Some Rotation) by (unfold kind_in, s', new; simpl built; rewrite kind_new; reflexivity).
  exists s'. split; [exact LD|]. split; [constructor|].
  - apply (t_length _ _ T).
  - intros i L. unfold s'. cbn [units get]. rewrite name_eqb_neq; [apply (t_qubit _ _ T), L|]. intros E. symmetry in E. exact (PX i L E).
  - intros y J. unfold s' at 1. cbn [units get]. destruct (name_eqb y x) eqn:E.
    + apply name_eqb_iff in E. subst y. split; [exact PX|]. exists new. auto.
    + destruct J as [<-|J]; [rewrite name_eqb_refl in E; discriminate|]. destruct (t_param _ _ T y J) as (A & w & B & C). split; [exact A|]. exists w. auto.
  - intros o' ws J. unfold s' in J. simpl in J. apply in_app_iff in J as [J|[J|[]]].
    + pose proof (t_nodes _ _ T o' ws J) as K. rewrite <- K. apply map_ext_in. intros w JW. apply (in_map (kind_in s)) in JW. rewrite K in JW. apply in_map_iff in JW as (k & E & _).  rewrite <- E. apply MORE. congruence.
    + injection J as <- <-. cbn [map]. rewrite (MORE wa _ KA), (MORE wb _ KB). reflexivity.
  - unfold s'. cbn [wires]. eapply Forall_impl; [|apply (t_wires _ _ T)]. intros w K. apply MORE. exact K.
  - intros w K. unfold s'. cbn [built wires]. rewrite map_app, concat_app, count_occ_app.
    unfold kind_in, s' in K. cbn [built] in K. apply (kind_back nq np (built s) [] []) in K as [K|(q & -> & K)].
    + pose proof (t_once _ _ T w K) as O. fold (kind_in s w) in K. cbn [map snd concat app].
      assert (P0 : count_occ wire_eq_dec [wa; wb] w = 0) by (apply count_occ_not_In; intros [<-|[<-|[]]]; congruence). rewrite P0. lia.
    + exfalso. destruct q as [|[|q]]; discriminate.
  - intros V dflt sem inputs e AR [YQ YP].
    unfold run_op. rewrite OS, IN. cbn [named find op_name String.eqb Ascii.eqb Bool.eqb map all_some]. rewrite (YP a wa JA GA), (YP b wb JB GB). eexists. split; [reflexivity|]. rewrite OUT.
    constructor.
    + intros i L. unfold s'. cbn [wires built]. rewrite assign_other by (intros [E|[]]; exact (PX i L E)).
      rewrite (value_more dflt sem inputs s _ Qubit); [apply YQ, L|]. pose proof (t_wires _ _ T) as TW. rewrite Forall_forall in TW. apply TW. apply nth_In. rewrite (t_length _ _ T). exact L.
    + intros y w J G. unfold s' in G. cbn [units get] in G. destruct (name_eqb y x) eqn:E.
      * apply name_eqb_iff in E. subst y. injection G as <-. unfold s'. cbn [built]. unfold new. rewrite value_new. cbn [map].
        rewrite (assign_at [x] _ e 0 x dflt); [reflexivity|constructor; [intros []|constructor]|rewrite AR; reflexivity|reflexivity].
      * assert (NX : y <> x) by (intros ->; rewrite name_eqb_refl in E; discriminate). destruct J as [<-|J]; [contradiction|].
        rewrite assign_other by (intros [EX|[]]; congruence). destruct (t_param _ _ T y J) as (_ & w2 & G2 & K). rewrite G in G2. injection G2 as <-.
        unfold s'. cbn [built]. rewrite (value_more dflt sem inputs s w Rotation _ K). eapply YP; eauto.
Qed.
Lemma load_all : forall scope l, in_place nq scope l -> forall s, stat s scope ->
  exists s' scope', load_ops s l = Some s' /\ stat s' scope' /\
    forall (V : Type) (dflt : V) sem inputs e, arity sem -> dyn dflt sem inputs s scope e -> exists e', run_ops sem e l = Some e' /\ dyn dflt sem inputs s' scope' e'.
Proof.
  intros scope l IP. induction IP as [scope|scope c l o qs ps MO SI SO IN OUT ND FQ FP IP IH|scope c l a b x OS IN OUT JA JB PX IP IH]; intros s T.
  - exists s, scope. split; [reflexivity|]. split; [exact T|]. intros V dflt sem inputs e AR D. exists e. auto.
  - destruct (step_gate s scope c o qs ps T MO SI SO IN OUT ND FQ FP) as (s1 & L1 & T1 & R1). destruct (IH s1 T1) as (s2 & sc & L2 & T2 & R2).
    exists s2, sc. split; [simpl; rewrite L1; exact L2|]. split; [exact T2|]. intros V dflt sem inputs e AR D. destruct (R1 V dflt sem inputs e AR D) as (e1 & E1 & D1). destruct (R2 V dflt sem inputs e1 AR D1) as (e2 & E2 & D2).
    exists e2. split; [simpl; rewrite E1; exact E2|exact D2].
  - destruct (step_add s scope c a b x T OS IN OUT JA JB PX) as (s1 & L1 & T1 & R1). destruct (IH s1 T1) as (s2 & sc & L2 & T2 & R2).
    exists s2, sc. split; [simpl; rewrite L1; exact L2|]. split; [exact T2|]. intros V dflt sem inputs e AR D. destruct (R1 V dflt sem inputs e AR D) as (e1 & E1 & D1). destruct (R2 V dflt sem inputs e1 AR D1) as (e2 & E2 & D2).
    exists e2. split; [simpl; rewrite E1; exact E2|exact D2].
Qed.
End Load.
