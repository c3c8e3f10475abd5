(** Runs are determined by the inputs, and the qubits of a run keep apart. *)
From Coq Require Import List Arith Bool Lia Permutation.
From Verif Require Import OpsModel ResolveModel ResolveSpec ResolveMain DfgModel DfgSpec DfgProofs DfgProofs2 DfgProofs3 DfgProofs4.
Import ListNotations.
Local Notation S := Datatypes.S.

Lemma angles_le : forall o, gop_angles o <= 1.
Proof. intros [o|]; [destruct o|]; simpl; lia. Qed.

Section Run.
Variables (g : graph) (order : list nat).
Hypothesis W : wf g.
Hypothesis Tp : topological g order.

Section Values.
Variable V : Type.
Variable cl : nat -> list V -> nat -> V.

Lemma gate_qubit_target : forall k o d n i, In (k, Gate o d n) (g_nodes g) -> i < n + gop_qubits o ->
  target g (Nd k, i) true.
Proof.
  intros k o d n i J L. exists (Gate o d n). split; auto. simpl. rewrite nth_repeat_app.
  rewrite (proj2 (Nat.ltb_lt _ _)); auto.
Qed.
Lemma gate_angle_target : forall k o d n, In (k, Gate o d n) (g_nodes g) -> gop_angles o = 1 ->
  target g (Nd k, n + gop_qubits o) false.
Proof.
  intros k o d n J L. exists (Gate o d n). split; auto. simpl. rewrite nth_repeat_app, L.
  rewrite Nat.ltb_irrefl, Nat.sub_diag. auto.
Qed.

(** ** The gates of a run *)

Section OneRun.
Variables (ins outs : list (value V)) (val : node * nat -> value V).
Hypothesis Ca : carries cl g ins outs val.

Lemma typed_arrival : forall t b, target g t b -> of_type b (val (src g t)).
Proof. intros t b T. apply (ca_typed _ _ _ _ _ _ Ca). apply src_type; auto. Qed.

Lemma event_exists : forall k o d n, In (k, Gate o d n) (g_nodes g) -> exists e, is_event g val k e.
Proof.
  intros k o d n J.
  destruct (list_choice nat (fun i q => val (src g (Nd k, i)) = Qb q) (n + gop_qubits o)) as (qs & L & Q).
  { intros i Li. pose proof (typed_arrival _ _ (gate_qubit_target _ _ _ _ _ J Li)) as T.
    destruct (val (src g (Nd k, i))) as [q|v]; [eauto|discriminate]. }
  assert (Lf : length (firstn n qs) = n) by (rewrite firstn_length; lia).
  assert (exists a : option V, match a with
      | None => gop_angles o = 0
      | Some v => gop_angles o = 1 /\ arrives g val (Nd k, n + gop_qubits o) (Cl v)
      end) as (a & A).
  { pose proof (angles_le o). destruct (gop_angles o) as [|[|]] eqn:Q1; [exists None; auto| |lia].
    pose proof (gate_angle_target _ _ _ _ J Q1) as T. pose proof (typed_arrival _ _ T) as T'.
    destruct (val (src g (Nd k, n + gop_qubits o))) as [q|v] eqn:Qv; [discriminate|].
    exists (Some v). split; auto. rewrite <- Qv. apply (arrives_src _ W _ val _ _ T). }
  exists (Ev o d (firstn n qs) (skipn n qs) a). simpl. rewrite Lf. split; auto. split.
  - rewrite skipn_length. lia.
  - split; auto. rewrite firstn_skipn. intros i q N. rewrite <- (Q _ _ N).
    apply (arrives_src _ W _ val _ true). apply gate_qubit_target with o d n; auto.
    rewrite <- L. apply nth_error_Some. congruence.
Qed.

Lemma trace_exists : forall l, (forall k, In k l -> exists o, In (k, o) (g_nodes g)) ->
  exists es, trace g val l es.
Proof.
  induction l as [|k l IH]; intro H; [exists []; constructor|].
  destruct IH as (es & T); [intros; apply H; simpl; auto|].
  destruct (H k) as (o & No); [simpl; auto|]. destruct o as [o d n|lab i0 u0].
  - destruct (event_exists _ _ _ _ No) as (e & Ie). exists (e :: es). constructor; auto.
  - exists es. apply trace_copied with lab i0 u0; auto.
Qed.
End OneRun.

(** ** Uniqueness *)

Section TwoRuns.
Variables (ins outs outs' : list (value V)) (val val' : node * nat -> value V).
Hypothesis Ca : carries cl g ins outs val.
Hypothesis Ca' : carries cl g ins outs' val'.

Lemma same_inputs : forall i b, source g (Inp, i) b -> val (Inp, i) = val' (Inp, i).
Proof.
  intros i b Hs. unfold source in Hs. simpl in Hs.
  destruct (ca_ins _ _ _ _ _ _ Ca) as [L A], (ca_ins _ _ _ _ _ _ Ca') as [_ B].
  assert (Li : i < length ins) by (rewrite L; apply nth_error_Some; congruence).
  destruct (nth_ex _ _ _ Li) as (x & N). rewrite (A _ _ N), (B _ _ N). auto.
Qed.

Lemma same_prefix : forall p r, order = p ++ r ->
  forall k, In k p -> forall i b, source g (Nd k, i) b -> val (Nd k, i) = val' (Nd k, i).
Proof.
  induction p as [|k p IH] using rev_ind; intros r E k' J i b Hs; [destruct J|].
  rewrite <- app_assoc in E. simpl in E. apply in_app_or in J. destruct J as [J|[<-|[]]]; [apply (IH _ E _ J i b); auto|].
  assert (Same : forall j c, target g (Nd k, j) c -> val (src g (Nd k, j)) = val' (src g (Nd k, j))).
  { intros j c T. pose proof (src_type g W _ _ T) as Hc.
    destruct (src_before g order W Tp _ _ _ _ _ E T) as [Q|(a & Q & Ja)];
      destruct (src g (Nd k, j)) as [x y]; simpl in Q; subst x.
    - apply (same_inputs _ _ Hc).
    - apply (IH _ E a Ja y c). auto. }
  unfold source in Hs. simpl in Hs. destruct Hs as (o & No & Hs). destruct o as [o d n|l i0 u0]; simpl in Hs.
  - rewrite nth_repeat' in Hs. destruct (Nat.ltb_spec i (n + gop_qubits o)) as [L|]; [|discriminate].
    pose proof (gate_qubit_target _ _ _ _ _ No L) as T.
    rewrite (arrives_is g W _ val _ _ (ca_gate _ _ _ _ _ _ Ca _ _ _ _ No _ L)).
    rewrite (arrives_is g W _ val' _ _ (ca_gate _ _ _ _ _ _ Ca' _ _ _ _ No _ L)).
    apply (Same _ _ T).
  - destruct (ca_copied _ _ _ _ _ _ Ca _ _ _ _ No) as (vs & Lv & Vi & Vo).
    destruct (ca_copied _ _ _ _ _ _ Ca' _ _ _ _ No) as (vs' & Lv' & Vi' & Vo').
    assert (i < length u0) as Li by (apply nth_error_Some; congruence).
    rewrite (Vo _ Li), (Vo' _ Li). do 2 f_equal. apply nth_eq; [congruence|].
    intros j x y Nx Ny. pose proof (arrives_is g W _ _ _ _ (Vi _ _ Nx)) as A. pose proof (arrives_is g W _ _ _ _ (Vi' _ _ Ny)) as B.
    assert (exists c, target g (Nd k, j) c) as (c & T).
    { assert (j < length i0) as Lj by (rewrite <- Lv; apply nth_error_Some; congruence).
      destruct (nth_ex _ _ _ Lj) as (c & N). exists c, (Copied l i0 u0). auto. }
    rewrite (Same _ _ T) in A. congruence.
Qed.

Lemma same_values : forall s b, source g s b -> val s = val' s.
Proof.
  intros [[| |k] i] b Hs.
  - apply (same_inputs _ _ Hs).
  - destruct Hs.
  - apply (same_prefix order [] (eq_sym (app_nil_r _)) k) with b; auto.
    apply (order_node g order Tp). destruct Hs as (o & No & _). eauto.
Qed.

Lemma same_arrival : forall t b, target g t b -> val (src g t) = val' (src g t).
Proof. intros t b T. apply (same_values _ b). apply src_type; auto. Qed.

Lemma same_outs : outs = outs'.
Proof.
  destruct (ca_outs _ _ _ _ _ _ Ca) as [L A], (ca_outs _ _ _ _ _ _ Ca') as [L' B].
  apply nth_eq; [congruence|]. intros i x y Nx Ny.
  rewrite (arrives_is g W _ _ _ _ (A _ _ Nx)), (arrives_is g W _ _ _ _ (B _ _ Ny)).
  assert (Li : i < length (g_outs g)) by (rewrite <- L; apply nth_error_Some; congruence).
  destruct (nth_ex _ _ _ Li) as (b & N). apply (same_arrival (Outp, i) b). auto.
Qed.

Lemma same_event : forall k e e', is_event g val k e -> is_event g val' k e' -> e = e'.
Proof.
  intros k [o d cs ts a] [o' d' cs' ts' a'] (J & L & Q & A) (J' & L' & Q' & A').
  assert (Eg : Gate o d (length cs) = Gate o' d' (length cs')).
  { apply (nodes_fun g W _ _ _ J J'). }
  injection Eg as <- <- Lc.
  assert (Eq : cs ++ ts = cs' ++ ts').
  { apply nth_eq; [rewrite !app_length; congruence|]. intros i x y Nx Ny.
    pose proof (arrives_is g W _ _ _ _ (Q _ _ Nx)) as B. pose proof (arrives_is g W _ _ _ _ (Q' _ _ Ny)) as B'.
    assert (T : target g (Nd k, i) true).
    { apply gate_qubit_target with o d (length cs); auto. rewrite <- L, <- app_length. apply nth_error_Some. congruence. }
    rewrite (same_arrival _ _ T) in B. congruence. }
  assert (cs = cs' /\ ts = ts') as [<- <-].
  { clear - Eq Lc. revert cs' Eq Lc. induction cs as [|c cs IH]; intros [|c' cs'] E L; try discriminate; auto.
    simpl in E. injection E as <- E. simpl in L. destruct (IH cs' E) as [-> ->]; auto. }
  f_equal. destruct a as [v|], a' as [v'|]; auto.
  - destruct A as [A1 A], A' as [_ A']. apply (arrives_is g W) in A. apply (arrives_is g W) in A'.
    rewrite (same_arrival _ false) in A by (apply gate_angle_target with d; auto). congruence.
  - destruct A. congruence.
  - destruct A'. congruence.
Qed.

Lemma same_trace : forall l es es', trace g val l es -> trace g val' l es' -> es = es'.
Proof.
  intros l es es' T. revert es'. induction T; intros es' T'; inversion T'; subst; auto.
  - f_equal; auto. apply (same_event k); auto.
  - exfalso. destruct e. destruct H as [J _].
    match goal with H : In (k, Copied _ _ _) _ |- _ => pose proof (nodes_fun g W _ _ _ J H); discriminate end.
  - exfalso. destruct e. match goal with H : is_event _ _ _ _ |- _ => destruct H as [J _] end.
    pose proof (nodes_fun g W _ _ _ J H); discriminate.
Qed.
End TwoRuns.

(** ** Names of qubits *)

Section Names.
Variables (ins outs : list (value V)) (val : node * nat -> value V).
Hypothesis Ca : carries cl g ins outs val.
Hypothesis Classical : forall k l ins outs, In (k, Copied l ins outs) (g_nodes g) ->
  forall b, In b (ins ++ outs) -> b = false.

Definition qname (x : value V) : nat := match x with Qb q => q | Cl _ => 0 end.
Definition trues (l : list bool) : list nat := filter (fun i => nth i l false) (seq 0 (length l)).

Lemma trues_in : forall l i, In i (trues l) <-> nth_error l i = Some true.
Proof.
  intros l i. unfold trues. rewrite filter_In, in_seq. split.
  - intros [L E]. rewrite <- E. apply nth_error_nth'. lia.
  - intro E. split; [|apply nth_error_nth; auto]. assert (i < length l) by (apply nth_error_Some; congruence). lia.
Qed.
Lemma trues_nd : forall l, NoDup (trues l).
Proof. intro l. apply NoDup_filter, seq_NoDup. Qed.
Lemma filter_map_S : forall f l, filter f (map S l) = map S (filter (fun i => f (S i)) l).
Proof. induction l as [|x l IH]; simpl; auto. destruct (f (S x)); simpl; rewrite IH; auto. Qed.
Lemma trues_cons : forall b l, trues (b :: l) = (if b then [0] else []) ++ map S (trues l).
Proof.
  intros b l. unfold trues. simpl.
  assert (E : filter (fun i => nth i (b :: l) false) (seq 1 (length l)) = map S (filter (fun i => nth i l false) (seq 0 (length l)))).
  { rewrite <- seq_shift. apply (filter_map_S (fun i => nth i (b :: l) false)). }
  simpl in E. destruct b; simpl; rewrite E; auto.
Qed.

Lemma names_trues : forall row (vals : list (value V)) (f : nat -> value V), length vals = length row ->
  (forall i x, nth_error vals i = Some x -> f i = x) ->
  (forall i b, nth_error row i = Some b -> of_type b (f i)) ->
  names vals = map (fun i => qname (f i)) (trues row).
Proof.
  induction row as [|b row IH]; intros [|x vals] f L H T; try discriminate; auto.
  rewrite trues_cons, map_app, map_map. simpl.
  rewrite (IH vals (fun i => f (S i))); [|simpl in L; lia|intros; apply (H (S i)); auto|intros; apply (T (S i)); auto].
  f_equal. pose proof (T 0 b eq_refl) as T0. rewrite (H 0 x eq_refl) in T0.
  destruct x as [q|v], b; try discriminate; simpl; auto. rewrite (H 0 (Qb q) eq_refl). auto.
Qed.

Definition nameof (s : node * nat) : nat := qname (val s).

Lemma names_ins : names ins = map nameof (map (pair Inp) (trues (g_ins g))).
Proof.
  rewrite map_map. destruct (ca_ins _ _ _ _ _ _ Ca) as [L A].
  apply (names_trues _ _ (fun i => val (Inp, i))); auto.
  intros i b N. apply (ca_typed _ _ _ _ _ _ Ca). auto.
Qed.
Lemma names_outs : names outs = map nameof (map (src g) (map (pair Outp) (trues (g_outs g)))).
Proof.
  rewrite !map_map. destruct (ca_outs _ _ _ _ _ _ Ca) as [L A].
  apply (names_trues _ _ (fun i => val (src g (Outp, i)))); auto.
  - intros i x N. symmetry. apply (arrives_is g W). auto.
  - intros i b N. apply (typed_arrival _ _ _ Ca). auto.
Qed.

(** Qubits which are between the nodes of [p] and the others. *)
Definition reached (p : list nat) (x : node) : Prop :=
  match x with Inp => True | Outp => False | Nd k => In k p end.
Definition live_in (p : list nat) (s : node * nat) : Prop :=
  source g s true /\ reached p (fst s) /\ exists t, In (s, t) (g_edges g) /\ ~ reached p (fst t).

Definition gate_ports (k m : nat) : list (node * nat) := map (pair (Nd k)) (seq 0 m).

Lemma live_prefix : forall p r, order = p ++ r -> exists live, NoDup live /\
  (forall s, In s live <-> live_in p s) /\ Permutation (map nameof live) (names ins).
Proof.
  induction p as [|k p IH] using rev_ind; intros r E.
  - exists (map (pair Inp) (trues (g_ins g))). split; [|split].
    + apply NoDup_map_in; [|apply trues_nd]. intros x y _ _ H. congruence.
    + intros [x i]. rewrite in_map_iff. split.
      * intros (i' & Q & J). injection Q as <- <-. apply trues_in in J. split; [auto|]. split; [simpl; auto|].
        destruct (wf_used g W (Inp, i')) as (t & J'); [auto|]. exists t. split; auto.
        destruct (wf_typed g W _ _ J') as (b & _ & T). destruct t as [[| |a] j]; simpl; auto.
      * intros (Hs & R & _). destruct x; simpl in R; try tauto. exists i. split; auto. apply trues_in. auto.
    + rewrite names_ins. auto.
  - rewrite <- app_assoc in E. simpl in E. destruct (IH _ E) as (live & N & H & P).
    pose proof (order_nd g order W Tp) as No. rewrite E in No.
    assert (Nk : ~ In k p).
    { apply NoDup_remove in No. destruct No as [_ No]. intro J. apply No, in_or_app. auto. }
    assert (Jk : In k order) by (rewrite E; apply in_or_app; simpl; auto).
    apply (order_node g order Tp) in Jk. destruct Jk as (o & Ok).
    assert (exists m, (forall i, i < m -> target g (Nd k, i) true /\ source g (Nd k, i) true /\
                         nameof (Nd k, i) = nameof (src g (Nd k, i))) /\
                      (forall i, target g (Nd k, i) true -> i < m) /\
                      (forall i, source g (Nd k, i) true -> i < m)) as (m & Hm & Tm & Sm).
    { destruct o as [o d n|l i0 u0].
      - exists (n + gop_qubits o). split; [|split].
        + intros i L. split; [apply gate_qubit_target with o d n; auto|]. split.
          * exists (Gate o d n). split; auto. simpl. rewrite nth_repeat', (proj2 (Nat.ltb_lt _ _)); auto.
          * unfold nameof. f_equal. apply (arrives_is g W). apply (ca_gate _ _ _ _ _ _ Ca _ _ _ _ Ok _ L).
        + intros i (o' & Ok' & Q). simpl in Ok'. rewrite (nodes_fun g W _ _ _ Ok' Ok) in Q. simpl in Q.
          rewrite nth_repeat_app in Q. destruct (Nat.ltb_spec i (n + gop_qubits o)); auto.
          rewrite nth_repeat' in Q. destruct (_ <? _) in Q; discriminate.
        + intros i (o' & Ok' & Q). simpl in Ok'. rewrite (nodes_fun g W _ _ _ Ok' Ok) in Q. simpl in Q.
          rewrite nth_repeat' in Q. destruct (Nat.ltb_spec i (n + gop_qubits o)); auto. discriminate.
      - exists 0. split; [intros; lia|].
        split; intros i (o' & Ok' & Q); simpl in Ok'; rewrite (nodes_fun g W _ _ _ Ok' Ok) in Q; simpl in Q;
          exfalso; assert (true = false); try discriminate; apply (Classical _ _ _ _ Ok); apply in_or_app;
          apply nth_error_In in Q; auto. }
    set (used := map (src g) (gate_ports k m)).
    assert (Nu : NoDup used).
    { apply NoDup_map_in.
      - intros x y Jx Jy Q. apply in_map_iff in Jx. destruct Jx as (i & <- & Ji). apply in_map_iff in Jy. destruct Jy as (j & <- & Jj).
        apply in_seq in Ji. apply in_seq in Jj. apply (src_inj g W); auto; apply Hm; lia.
      - apply NoDup_map_in; [|apply seq_NoDup]. intros x y _ _ Q. congruence. }
    assert (Iu : forall s, In s used <-> In s live /\ exists t, In (s, t) (g_edges g) /\ fst t = Nd k).
    { intro s. split.
      - intro J. apply in_map_iff in J. destruct J as (t & <- & J). apply in_map_iff in J. destruct J as (i & <- & J).
        apply in_seq in J. destruct (Hm i) as (T & _ & _); [lia|]. split.
        + apply H. split; [apply src_type; auto|]. split.
          * destruct (src_before g order W Tp _ _ _ _ _ E T) as [Q|(a & Q & Ja)]; rewrite Q; simpl; auto.
          * exists (Nd k, i). split; [apply (src_in g W _ _ T)|]. simpl. auto.
        + exists (Nd k, i). split; auto. apply (src_in g W _ _ T).
      - intros (J & t & Je & Et). apply H in J. destruct J as (Hs & _). destruct t as [x i]. simpl in Et. subst x.
        destruct (wf_typed g W _ _ Je) as (b & Hs' & T).
        pose proof (source_fun g W _ _ _ Hs' Hs) as Eb. subst b.
        unfold used. apply in_map_iff. exists (Nd k, i). split; [apply (src_edge g W); auto|].
        apply in_map_iff. exists i. split; auto. apply in_seq. specialize (Tm _ T). lia. }
    assert (exists rest, Permutation live (used ++ rest)) as (rest & Pl).
    { clear - Nu Iu N. assert (Sub : forall s, In s used -> In s live) by (intros; apply Iu; auto). clear Iu.
      revert live N Sub. induction used as [|u l IH]; intros live N Sub; [exists live; auto|].
      apply NoDup_cons_iff in Nu. destruct Nu as [Nu1 Nu2].
      destruct (in_split u live) as (x & y & ->); [apply Sub; simpl; auto|].
      destruct (IH Nu2 (x ++ y)) as (rest & P).
      - apply NoDup_remove_1 in N. auto.
      - intros s J. assert (J' : In s (x ++ u :: y)) by (apply Sub; simpl; auto).
        apply in_app_or in J'. apply in_or_app. destruct J' as [J'|[->|J']]; auto. contradiction.
      - exists rest. rewrite <- Permutation_middle. simpl. apply perm_skip. auto. }
    assert (Nl : NoDup (used ++ rest)) by (apply (Permutation_NoDup Pl); auto).
    apply NoDup_app_iff' in Nl. destruct Nl as (_ & Nr & Dr).
    assert (Ir : forall s, In s rest <-> In s live /\ ~ In s used).
    { intro s. split.
      - intro J. split; [apply (Permutation_in _ (Permutation_sym Pl)), in_or_app; auto|]. intro J'. apply (Dr s); auto.
      - intros [J J']. apply (Permutation_in _ Pl) in J. apply in_app_or in J. tauto. }
    exists (gate_ports k m ++ rest). split; [|split].
    + apply NoDup_app_iff'. split; [|split; auto].
      * apply NoDup_map_in; [|apply seq_NoDup]. intros x y _ _ Q. congruence.
      * intros s J J'. apply in_map_iff in J. destruct J as (i & <- & _). apply Ir in J'. destruct J' as [J' _].
        apply H in J'. destruct J' as (_ & R & _). simpl in R. auto.
    + intro s. rewrite in_app_iff. split.
      * intros [J|J].
        -- apply in_map_iff in J. destruct J as (i & <- & J). apply in_seq in J.
           destruct (Hm i) as (_ & Hs & _); [lia|]. split; auto. split; [simpl; apply in_or_app; simpl; auto|].
           destruct (wf_used g W _ Hs) as (t & Je). exists t. split; auto.
           destruct (wf_typed g W _ _ Je) as (b & _ & T). destruct t as [[| |a] j]; simpl; auto.
           destruct Tp as [_ B]. apply B in Je. intro Ja. apply in_app_or in Ja. rewrite E in Je. destruct Ja as [Ja|[<-|[]]].
           ++ apply in_split in Ja. destruct Ja as (x & y & ->).
              rewrite <- app_assoc in Je, No. simpl in Je, No.
              apply (before_split x a (y ++ k :: r) k No) in Je. apply Nk, in_or_app. auto.
           ++ apply (before_split p k r k No) in Je. auto.
        -- apply Ir in J. destruct J as [J Ju]. pose proof J as J0. apply H in J0. destruct J0 as (Hs & R & t & Je & Rt).
           split; auto. split; [destruct s as [[| |a] i]; simpl in *; auto; apply in_or_app; auto|].
           exists t. split; auto. destruct t as [[| |a] i]; simpl in *; auto. intro Ja. apply in_app_or in Ja.
           destruct Ja as [Ja|[<-|[]]]; auto. apply Ju, Iu. split; auto. exists (Nd k, i). auto.
      * intros (Hs & R & t & Je & Rt). destruct s as [x i].
        assert (Rx : reached p x \/ x = Nd k).
        { destruct x as [| |a]; simpl in R |- *; auto. apply in_app_or in R. destruct R as [R|[->|[]]]; auto. }
        destruct Rx as [Rx| ->].
        -- right. apply Ir. split.
           ++ apply H. split; auto. split; auto. exists t. split; auto.
              destruct t as [[| |a] j]; simpl in *; auto. intro Ja. apply Rt, in_or_app. auto.
           ++ intro Ju. apply Iu in Ju. destruct Ju as (_ & t' & Je' & Et').
              rewrite (wf_linear g W _ _ _ Hs Je' Je) in Et'. destruct t as [tx j]. simpl in Et'. subst tx.
              apply Rt. simpl. apply in_or_app. simpl; auto.
        -- left. apply in_map_iff. exists i. split; auto. apply in_seq. specialize (Sm _ Hs). lia.
    + rewrite <- P, Pl, !map_app. apply Permutation_app_tail. unfold used. rewrite map_map.
      unfold gate_ports. rewrite !map_map.
      rewrite (map_ext_in _ (fun i => nameof (src g (Nd k, i)))); auto.
      intros i J. apply in_seq in J. apply Hm. lia.
Qed.

Lemma names_kept : Permutation (names outs) (names ins).
Proof.
  destruct (live_prefix order [] (eq_sym (app_nil_r _))) as (live & N & H & P).
  rewrite <- P, names_outs. apply Permutation_map. apply NoDup_Permutation; auto.
  - apply NoDup_map_in.
    + intros x y Jx Jy Q. apply in_map_iff in Jx. destruct Jx as (i & <- & Ji). apply in_map_iff in Jy. destruct Jy as (j & <- & Jj).
      apply trues_in in Ji. apply trues_in in Jj. apply (src_inj g W); auto.
    + apply NoDup_map_in; [|apply trues_nd]. intros x y _ _ Q. congruence.
  - intro s. rewrite H. rewrite in_map_iff. split.
    + intros (t & <- & J). apply in_map_iff in J. destruct J as (j & <- & J). apply trues_in in J.
      assert (T : target g (Outp, j) true) by auto. pose proof (src_in g W _ _ T) as Je. pose proof (src_type g W _ _ T) as Hs.
      split; auto. split; [|exists (Outp, j); auto].
      destruct (src g (Outp, j)) as [[| |a] i]; simpl; auto.
      * destruct Hs as (o & No & _). apply (order_node g order Tp). eauto.
    + intros (Hs & R & t & Je & Rt). destruct (wf_typed g W _ _ Je) as (b & Hs' & T).
      pose proof (source_fun g W _ _ _ Hs' Hs) as Eb. subst b.
      exists t. split; [apply (src_edge g W); auto|]. destruct t as [[| |a] j]; simpl in *.
      * tauto.
      * apply in_map_iff. exists j. split; auto. apply trues_in. auto.
      * exfalso. apply Rt. apply (order_node g order Tp). destruct T as (o & No & _). eauto.
Qed.

(** The qubits of a gate are different qubits of the input. *)
Lemma event_names : NoDup (names ins) -> forall k o d cs ts a, is_event g val k (Ev o d cs ts a) ->
  NoDup (cs ++ ts) /\ forall q, In q (cs ++ ts) -> In q (names ins).
Proof.
  intros Ni k o d cs ts a (J & L & Q & _).
  assert (Jk : In k order) by (apply (order_node g order Tp); eauto).
  apply in_split in Jk. destruct Jk as (p & r & E).
  destruct (live_prefix p (k :: r) E) as (live & N & H & P).
  assert (Nn : NoDup (map nameof live)) by (apply (Permutation_NoDup (Permutation_sym P)); auto).
  set (m := length cs + gop_qubits o).
  assert (Eq : cs ++ ts = map nameof (map (src g) (gate_ports k m))).
  { apply nth_eq; [unfold gate_ports; rewrite app_length, !map_length, seq_length; unfold m; lia|].
    intros i x y Nx Ny. pose proof (arrives_is g W _ _ _ _ (Q _ _ Nx)) as A.
    assert (Li : i < m) by (unfold m; rewrite <- L, <- app_length; apply nth_error_Some; congruence).
    unfold gate_ports in Ny. rewrite !nth_error_map in Ny.
    rewrite (nth_error_nth' (seq 0 m) 0) in Ny by (rewrite seq_length; auto). rewrite seq_nth in Ny by auto. simpl in Ny.
    injection Ny as <-. unfold nameof. rewrite <- A. auto. }
  assert (Sub : forall s, In s (map (src g) (gate_ports k m)) -> In s live).
  { intros s Js. apply in_map_iff in Js. destruct Js as (t & <- & Js). apply in_map_iff in Js. destruct Js as (i & <- & Js).
    apply in_seq in Js. assert (T : target g (Nd k, i) true) by (apply gate_qubit_target with o d (length cs); auto; unfold m in Js; lia).
    apply H. split; [apply src_type; auto|]. split.
    - destruct (src_before g order W Tp _ _ _ _ _ E T) as [X|(b & X & Jb)]; rewrite X; simpl; auto.
    - exists (Nd k, i). split; [apply (src_in g W _ _ T)|]. simpl. intro Jk.
      pose proof (order_nd g order W Tp) as No. rewrite E in No. apply NoDup_remove in No. destruct No as [_ No].
      apply No, in_or_app. auto. }
  rewrite Eq. split.
  - apply NoDup_map_in.
    + intros x y Jx Jy X. apply (NoDup_map_eq _ _ nameof live); auto.
    + apply NoDup_map_in.
      * intros x y Jx Jy X. apply in_map_iff in Jx. destruct Jx as (i & <- & Ji). apply in_map_iff in Jy. destruct Jy as (j & <- & Jj).
        apply in_seq in Ji. apply in_seq in Jj. unfold m in Ji, Jj.
        apply (src_inj g W); auto; apply gate_qubit_target with o d (length cs); auto; lia.
      * apply NoDup_map_in; [|apply seq_NoDup]. intros x y _ _ X. congruence.
  - intros q Jq. apply in_map_iff in Jq. destruct Jq as (s & <- & Js).
    apply (Permutation_in _ P). apply in_map. auto.
Qed.
End Names.
End Values.
End Run.
