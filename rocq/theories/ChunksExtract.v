(** Lemmas on extracting chunks. *)
From Coq Require Import List Bool Arith Lia Permutation.
From Verif Require Import ChunksSpec ChunksModel ChunksProofs.
Import ListNotations.
Open Scope nat_scope.

Lemma nth_error_firstn : forall (A : Type) n (l : list A) k, k < n -> nth_error (firstn n l) k = nth_error l k.
Proof. induction n as [|n IH]; intros l k H; [lia|]. destruct l as [|x l], k as [|k]; simpl; auto. apply IH. lia. Qed.
Lemma nth_error_skipn : forall (A : Type) n (l : list A) k, nth_error (skipn n l) k = nth_error l (n + k).
Proof. induction n as [|n IH]; intros l k; [reflexivity|]. destruct l as [|x l]; simpl; [destruct k; reflexivity|apply IH]. Qed.
Lemma nth_error_map' : forall (A B : Type) (f : A -> B) l k, nth_error (map f l) k = option_map f (nth_error l k).
Proof. induction l as [|x l IH]; intros [|k]; simpl; auto. Qed.
Lemma firstn_plus : forall (A : Type) a b (l : list A), firstn (a + b) l = firstn a l ++ firstn b (skipn a l).
Proof. induction a as [|a IH]; intros b l; [reflexivity|]. destruct l as [|x l]; simpl; [rewrite firstn_nil; reflexivity|]. rewrite IH. reflexivity. Qed.

Section Extract.
Variable op : Type.
Variable n_outs : op -> nat.
Notation named_chunk := (named_chunk op).
Notation cir_nodes := (cir_nodes op).
Notation cir_outs := (cir_outs op).
Notation outside start len := (filter (fun w => negb (inside start len w))).

(** What an extracted port reads. *)
Definition port_of (start len base : nat) (ins : list name) (w : name) (x : csrc) : Prop :=
  if inside start len w then x = FromNode (fst w - start - 1) (snd w)
  else exists i, x = FromIn (base + i) /\ nth_error ins i = Some w.

Lemma extract_ports_ok : forall start len ws n, exists ss, extract_ports start len n ws = (ss, n + length (outside start len ws)) /\
  length ss = length ws /\
  forall p w, nth_error ws p = Some w -> exists x, nth_error ss p = Some x /\ port_of start len n (outside start len ws) w x.
Proof.
  intros start len. induction ws as [|w ws IH]; intro n; simpl.
  - exists []. rewrite Nat.add_0_r. split; [reflexivity|]. split; [reflexivity|]. intros [|p]; discriminate.
  - destruct (inside start len w) eqn:Ew; simpl.
    + destruct (IH n) as (ss & -> & L & H). eexists. split; [reflexivity|]. split; [simpl; congruence|].
      intros [|p] w' Hp; simpl in Hp.
      * injection Hp as <-. eexists. split; [reflexivity|]. unfold port_of. rewrite Ew. reflexivity.
      * apply H. assumption.
    + destruct (IH (S n)) as (ss & -> & L & H). eexists. split; [f_equal; lia|]. split; [simpl; congruence|].
      intros [|p] w' Hp; simpl in Hp.
      * injection Hp as <-. eexists. split; [reflexivity|]. unfold port_of. rewrite Ew. exists 0. rewrite Nat.add_0_r. auto.
      * destruct (H p w' Hp) as (x & Hx & Px). exists x. split; [assumption|]. unfold port_of in *. destruct (inside start len w'); [assumption|].
        destruct Px as (i & -> & Hi). exists (S i). split; [f_equal; lia|assumption].
Qed.

Lemma filter_app' : forall (A : Type) (f : A -> bool) a b, filter f (a ++ b) = filter f a ++ filter f b.
Proof. induction a as [|x a IH]; intro b; simpl; [reflexivity|]. destruct (f x); simpl; rewrite IH; reflexivity. Qed.

Lemma extract_nodes_ok : forall start len nodes n, length (extract_nodes op start len n nodes) = length nodes /\
  map fst (extract_nodes op start len n nodes) = map fst nodes /\
  forall k o ws, nth_error nodes k = Some (o, ws) -> exists ss, nth_error (extract_nodes op start len n nodes) k = Some (o, ss) /\
    length ss = length ws /\
    forall p w, nth_error ws p = Some w -> exists x, nth_error ss p = Some x /\
      port_of start len n (outside start len (group_reads op nodes)) w x.
Proof.
  intros start len. induction nodes as [|[o ws] nodes IH]; intro n; simpl.
  - split; [reflexivity|]. split; [reflexivity|]. intros [|k]; discriminate.
  - destruct (extract_ports_ok start len ws n) as (ss & -> & L & H).
    destruct (IH (n + length (outside start len ws))) as (L' & F' & H'). simpl. split; [congruence|]. split; [congruence|].
    intros [|k] o' ws' Hk; simpl in Hk.
    + injection Hk as <- <-. exists ss. split; [reflexivity|]. split; [assumption|]. intros p w Hp. destruct (H p w Hp) as (x & Hx & Px).
      exists x. split; [assumption|]. unfold port_of in *. destruct (inside start len w); [assumption|]. destruct Px as (i & -> & Hi).
      exists i. split; [reflexivity|]. rewrite filter_app', nth_error_app1; [assumption|apply nth_error_Some; congruence].
    + destruct (H' k o' ws' Hk) as (ss' & E' & L1 & P'). exists ss'. split; [assumption|]. split; [assumption|].
      intros p w Hp. destruct (P' p w Hp) as (x & Hx & Px). exists x. split; [assumption|]. unfold port_of in *.
      destruct (inside start len w); [assumption|]. destruct Px as (i & -> & Hi). exists (length (outside start len ws) + i).
      split; [f_equal; lia|]. rewrite filter_app', nth_error_app2 by lia.
      replace (length (outside start len ws) + i - length (outside start len ws)) with i by lia. assumption.
Qed.

Lemma out_ports_In : forall start group w, In w (out_ports op n_outs start group) <->
  exists k o ws p, nth_error group k = Some (o, ws) /\ p < n_outs o /\ w = (S (start + k), p).
Proof.
  intros start group w. unfold out_ports. rewrite in_flat_map. split.
  - intros ([k [o ws]] & H & Hw). apply indexed_In in H. simpl in Hw. apply in_map_iff in Hw. destruct Hw as (p & <- & Hp). apply in_seq in Hp.
    exists k, o, ws, p. split; [assumption|]. split; [lia|]. f_equal. lia.
  - intros (k & o & ws & p & H & Hp & ->). exists (k, (o, ws)). split; [apply indexed_In; assumption|]. simpl. apply in_map_iff. exists p.
    split; [f_equal; lia|apply in_seq; lia].
Qed.
Lemma NoDup_app_intro : forall (A : Type) (a b : list A), NoDup a -> NoDup b -> (forall x, In x a -> ~ In x b) -> NoDup (a ++ b).
Proof.
  induction a as [|x a IH]; intros b Ha Hb D; simpl; [assumption|]. inversion Ha; subst. constructor.
  - intro H. apply in_app_iff in H. destruct H as [H|H]; [contradiction|]. apply (D x); [left; reflexivity|assumption].
  - apply IH; auto. intros y Hy. apply D. right. assumption.
Qed.
Lemma NoDup_map_pair : forall (k n b : nat), NoDup (map (fun p => (k, p)) (seq b n)).
Proof.
  intro k. induction n as [|n IH]; intro b; simpl; constructor; [|apply IH]. intro H. apply in_map_iff in H. destruct H as (p & E & Hp).
  apply in_seq in Hp. injection E as ->. lia.
Qed.
Lemma out_ports_NoDup : forall start group, NoDup (out_ports op n_outs start group).
Proof.
  intros start group. unfold out_ports, indexed.
  enough (G : forall a, NoDup (flat_map (fun ko : nat * (op * list name) => map (fun p => (start + fst ko + 1, p)) (seq 0 (n_outs (fst (snd ko))))) (combine (seq a (length group)) group))) by apply G.
  induction group as [|[o ws] group IH]; intro a; simpl; [constructor|].
  apply NoDup_app_intro; [apply NoDup_map_pair|apply IH|]. intros w Hw H. apply in_map_iff in Hw. destruct Hw as (p & <- & _).
  apply in_flat_map in H. destruct H as ([k y] & H & Hw). apply in_combine_l, in_seq in H. simpl in Hw. apply in_map_iff in Hw.
  destruct Hw as (p' & E & _). injection E as E _. lia.
Qed.
Lemma NoDup_filter' : forall (A : Type) (f : A -> bool) l, NoDup l -> NoDup (filter f l).
Proof.
  intros A f l. induction 1; simpl; [constructor|]. destruct (f x); [|assumption]. constructor; [|assumption].
  intro Hx. apply filter_In in Hx. tauto.
Qed.

Variable n_in : nat.
Variable c : circuit op.
Notation nodes := (cir_nodes c).
Hypothesis wf : circuit_wf op n_outs n_in c.
Notation chunk start len := (extract op n_outs c start len).
Notation avail := (available op n_outs n_in c).

Lemma outside_filter : forall start len l,
  filter (fun w : name => if start <? fst w then start + len <? fst w else true) l = outside start len l.
Proof.
  intros start len l. apply filter_ext. intro w. unfold inside. destruct (Nat.ltb_spec start (fst w)); simpl; [|reflexivity].
  destruct (Nat.leb_spec (fst w) (start + len)), (Nat.ltb_spec (start + len) (fst w)); simpl; try reflexivity; lia.
Qed.
Lemma chunk_ins : forall start len, c_ins op (chunk start len) = outside_reads op c start len.
Proof. intros. unfold extract, outside_reads. simpl. symmetry. apply outside_filter. Qed.

Lemma group_nth : forall start len k, k < len -> nth_error (firstn len (skipn start nodes)) k = nth_error nodes (start + k).
Proof. intros. rewrite nth_error_firstn by assumption. apply nth_error_skipn. Qed.
Lemma group_length : forall start len, start + len <= length nodes -> length (firstn len (skipn start nodes)) = len.
Proof. intros. rewrite firstn_length, skipn_length. lia. Qed.

Lemma chunk_outs_In : forall start len w, start + len <= length nodes -> (In w (c_outs op (chunk start len)) <->
  exists k o ws p, k < len /\ nth_error nodes (start + k) = Some (o, ws) /\ p < n_outs o /\ w = (S (start + k), p) /\
    used_outside op c start len w = true).
Proof.
  intros start len w L. unfold extract. simpl. rewrite filter_In, out_ports_In. split.
  - intros [(k & o & ws & p & H & Hp & ->) Hu]. assert (k < len) by (rewrite <- (group_length start len L); apply nth_error_Some; congruence).
    rewrite group_nth in H by assumption. exists k, o, ws, p. auto.
  - intros (k & o & ws & p & Hk & H & Hp & -> & Hu). split; [|assumption]. exists k, o, ws, p. rewrite group_nth by assumption. auto.
Qed.
Lemma chunk_nodes : forall start len, start + len <= length nodes ->
  length (b_nodes op (c_body op (chunk start len))) = len /\
  map fst (b_nodes op (c_body op (chunk start len))) = map fst (firstn len (skipn start nodes)) /\
  forall k o ws, k < len -> nth_error nodes (start + k) = Some (o, ws) -> exists ss,
    nth_error (b_nodes op (c_body op (chunk start len))) k = Some (o, ss) /\ length ss = length ws /\
    forall p w, nth_error ws p = Some w -> exists x, nth_error ss p = Some x /\
      port_of start len 0 (c_ins op (chunk start len)) w x.
Proof.
  intros start len L. unfold extract. simpl. destruct (extract_nodes_ok start len (firstn len (skipn start nodes)) 0) as (L1 & F & H).
  rewrite group_length in L1 by assumption. split; [assumption|]. split; [assumption|]. intros k o ws Hk Hn.
  rewrite <- (group_nth start len k Hk) in Hn. apply H in Hn. exact Hn.
Qed.
Lemma chunk_bouts : forall start len i w s, nth_error (c_outs op (chunk start len)) i = Some w ->
  nth_error (b_outs op (c_body op (chunk start len))) i = Some s -> s = FromNode (fst w - start - 1) (snd w).
Proof. intros start len i w s. unfold extract. simpl. intros H1 H2. rewrite nth_error_map' in H2. unfold name in *. rewrite H1 in H2. injection H2 as <-. reflexivity. Qed.

Lemma chunk_good : forall start len, start + len <= length nodes -> NoDup (c_ins op (chunk start len)) -> good_chunk op (chunk start len).
Proof.
  intros start len L ND. destruct (chunk_nodes start len L) as (L1 & _ & Hn). split.
  - assumption.
  - unfold extract. simpl. apply NoDup_filter', out_ports_NoDup.
  - unfold extract. simpl. rewrite map_length. reflexivity.
  - intros k o ss i Hk Hi. assert (k < len) as Lk by (rewrite <- L1; apply nth_error_Some; congruence).
    destruct (nth_error nodes (start + k)) as [[o' ws]|] eqn:En; [|apply nth_error_None in En; lia].
    destruct (Hn k o' ws Lk En) as (ss' & E & Ls & Hp). rewrite Hk in E. injection E as <- <-.
    apply In_nth_error in Hi. destruct Hi as (p & Hip). assert (p < length ws) as Lp by (rewrite <- Ls; apply nth_error_Some; congruence).
    destruct (nth_error ws p) as [w|] eqn:Ew; [|apply nth_error_None in Ew; lia]. destruct (Hp p w Ew) as (x & Hx & Px).
    rewrite Hip in Hx. injection Hx as <-. unfold port_of in Px. destruct (inside start len w); [discriminate|].
    destruct Px as (j & E & Hj). injection E as ->. apply nth_error_Some. rewrite Hj. discriminate.
  - intros i Hi. unfold extract in Hi. simpl in Hi. apply in_map_iff in Hi. destruct Hi as (w & E & _). discriminate.
  - intros En k p H. rewrite En in L1. simpl in L1. subst len. unfold extract in H. simpl in H. destruct H.
Qed.

(** Reads from outside a group come from before it. *)
Lemma outside_before : forall start len k o ws w, k < len -> nth_error nodes (start + k) = Some (o, ws) -> In w ws ->
  inside start len w = false -> avail start w.
Proof.
  intros start len k o ws w Hk Hn Hw Hi. pose proof (proj1 wf _ _ _ _ Hn Hw) as A. unfold available in *. unfold inside in Hi.
  destruct (fst w) as [|j] eqn:Ef; [assumption|]. destruct A as [A B]. split; [|assumption].
  apply andb_false_iff in Hi. destruct Hi as [Hi|Hi]; [apply Nat.ltb_ge in Hi|apply Nat.leb_gt in Hi]; lia.
Qed.

(** A wire read by command k or later, or by the output. *)
Definition needed (k : nat) (w : name) : Prop :=
  (exists n o ws, k <= n /\ nth_error nodes n = Some (o, ws) /\ In w ws) \/ In w (cir_outs c).
Lemma needed_used : forall start len w, needed (start + len) w -> used_outside op c start len w = true.
Proof.
  intros start len w H. unfold used_outside. apply existsb_exists. exists w. split; [|apply name_eqb_eq; reflexivity].
  rewrite !in_app_iff. destruct H as [(n & o & ws & Hn & E & Hw)|H]; [|auto]. right. left. unfold group_reads. apply in_flat_map.
  exists (o, ws). split; [|assumption]. apply (nth_error_In _ (n - (start + len))). rewrite nth_error_skipn.
  replace (start + len + (n - (start + len))) with n by lia. assumption.
Qed.

(** The names of later chunks' outputs. *)
Lemma later_outs : forall sizes start ch w, start + list_sum sizes <= length nodes -> In ch (extract_all op n_outs c start sizes) ->
  In w (c_outs op ch) -> start < fst w.
Proof.
  induction sizes as [|len sizes IH]; intros start ch w L Hc Hw; [destruct Hc|]. simpl in L, Hc. destruct Hc as [<-|Hc].
  - apply chunk_outs_In in Hw; [|lia]. destruct Hw as (k & o & ws & p & _ & _ & _ & -> & _). simpl. lia.
  - assert (start + len < fst w); [|lia]. eapply IH; [|exact Hc|exact Hw]. lia.
Qed.
Lemma outs_NoDup : forall sizes start, start + list_sum sizes <= length nodes -> NoDup (flat_map (c_outs op) (extract_all op n_outs c start sizes)).
Proof.
  induction sizes as [|len sizes IH]; intros start L; [constructor|]. cbn [extract_all flat_map]. simpl in L. apply NoDup_app_intro.
  - unfold extract. simpl. apply NoDup_filter', out_ports_NoDup.
  - apply IH. lia.
  - intros w Hw H. apply in_flat_map in H. destruct H as (ch & Hc & H).
    apply (later_outs sizes (start + len) ch w) in H; [|lia|assumption].
    apply chunk_outs_In in Hw; [|lia]. destruct Hw as (k & o & ws & p & Hk & _ & _ & -> & _). simpl in H. lia.
Qed.

(** *** Connections *)
Variable iter : forall A : Type, list (name * A) -> list (name * A).
Hypothesis iter_perm : forall A (l : list (name * A)), Permutation (iter A l) l.

Record upto (start : nat) (st : state op) (re : renv) (log : target -> name -> Prop) : Prop := {
  u_ok : ok op st re log;
  u_ops : st_ops op st = map fst (firstn start nodes);
  u_re : forall w s, re w = Some s -> s = wire_source w /\ fst w <= start;
  u_def : forall w, avail start w -> needed start w -> re w <> None;
  u_conn : forall n p s, n < start -> (connected op st re log (TNode n p) s <-> circuit_edge op c s (TNode n p)) }.

Lemma upto_step : forall start len st re log, start + len <= length nodes -> NoDup (c_ins op (chunk start len)) -> upto start st re log ->
  exists st' re' log', add_chunk op iter st (chunk start len) = Some st' /\ upto (start + len) st' re' log'.
Proof.
  intros start len st re log L ND U.
  assert (Base : length (st_ops op st) = start) by (rewrite (u_ops _ _ _ _ U), map_length, firstn_length; lia).
  destruct (chunk_nodes start len L) as (L1 & F1 & Hn).
  assert (Ins : forall w, In w (c_ins op (chunk start len)) -> avail start w /\ needed start w).
  { intros w Hw. unfold extract in Hw. simpl in Hw. apply filter_In in Hw. destruct Hw as [Hw Hi]. apply negb_true_iff in Hi.
    unfold group_reads in Hw. apply in_flat_map in Hw. destruct Hw as ([o ws] & H & Hw). apply In_nth_error in H. destruct H as (k & Hk).
    assert (k < len) by (rewrite <- (group_length start len L); apply nth_error_Some; congruence). rewrite group_nth in Hk by assumption.
    split; [eapply outside_before; eassumption|]. left. exists (start + k), o, ws. split; [lia|]. auto. }
  destruct (add_chunk_ok op iter iter_perm st re log (chunk start len)) as (st' & re' & log' & E & I & Ops & R1 & R2 & K1 & K3 & K2).
  - apply (u_ok _ _ _ _ U).
  - apply chunk_good; assumption.
  - intros w Hw. apply (u_def _ _ _ _ U); apply Ins; assumption.
  - intros w Hw. apply chunk_outs_In in Hw; [|assumption]. destruct Hw as (k & o & ws & p & _ & _ & _ & -> & _).
    destruct (re (S (start + k), p)) as [s|] eqn:Er; [|reflexivity]. apply (u_re _ _ _ _ U) in Er. simpl in Er. lia.
  - rewrite Base in *. exists st', re', log'. split; [exact E|].
    assert (Src : forall w x k o ws, k < len -> nth_error nodes (start + k) = Some (o, ws) -> In w ws ->
       port_of start len 0 (c_ins op (chunk start len)) w x -> chunk_src op start (chunk start len) re x = Some (wire_source w)).
    { intros w x k o ws Hk Hno Hw Px. unfold port_of in Px. destruct (inside start len w) eqn:Ei.
      - subst x. unfold chunk_src. unfold inside in Ei. apply andb_true_iff in Ei. destruct Ei as [E1 E2]. apply Nat.ltb_lt in E1. apply Nat.leb_le in E2.
        unfold wire_source. destruct (fst w) as [|j]; [lia|]. do 2 f_equal. lia.
      - destruct Px as (i & -> & Hi). unfold chunk_src. cbn [Nat.add]. rewrite Hi.
        destruct (re w) as [s|] eqn:Er; [f_equal; apply (u_re _ _ _ _ U); assumption|].
        exfalso. destruct (Ins w (nth_error_In _ _ Hi)) as [A B]. exact (u_def _ _ _ _ U w A B Er). }
    split.
    + exact I.
    + rewrite Ops, (u_ops _ _ _ _ U), F1, firstn_plus, map_app. reflexivity.
    + intros w s Hs. destruct (in_dec name_dec w (c_outs op (chunk start len))) as [Hw|Hw].
      * pose proof Hw as Hw'. apply chunk_outs_In in Hw'; [|assumption]. destruct Hw' as (k & o & ws & p & Hk & _ & _ & -> & _).
        apply In_nth_error in Hw. destruct Hw as (i & Hi).
        assert (exists x, nth_error (b_outs op (c_body op (chunk start len))) i = Some x) as (x & Hx).
        { unfold extract in *. simpl in *. rewrite nth_error_map'. unfold name in *. rewrite Hi. eexists. reflexivity. }
        rewrite (R1 i _ x Hi Hx) in Hs. pose proof (chunk_bouts _ _ _ _ _ Hi Hx) as Ex. unfold fst, snd in Ex.
        replace (S (start + k) - start - 1) with k in Ex by lia. subst x. unfold chunk_src in Hs. injection Hs as <-.
        unfold wire_source, fst, snd. split; [reflexivity|lia].
      * rewrite R2 in Hs by assumption. apply (u_re _ _ _ _ U) in Hs. split; [tauto|lia].
    + intros w A N. destruct (in_dec name_dec w (c_outs op (chunk start len))) as [Hw|Hw].
      * apply In_nth_error in Hw. destruct Hw as (i & Hi).
        assert (exists x, nth_error (b_outs op (c_body op (chunk start len))) i = Some x) as (x & Hx).
        { unfold extract in *. simpl in *. rewrite nth_error_map'. unfold name in *. rewrite Hi. eexists. reflexivity. }
        rewrite (R1 i _ x Hi Hx), (chunk_bouts _ _ _ _ _ Hi Hx). discriminate.
      * rewrite R2 by assumption. apply (u_def _ _ _ _ U).
        { unfold available in *. destruct (fst w) as [|j] eqn:Ef; [assumption|]. destruct A as [A (o & ws & Ho & Hp)].
          destruct (Nat.lt_ge_cases j start) as [Hj|Hj]; [split; [assumption|eauto]|]. exfalso. apply Hw. apply chunk_outs_In; [assumption|].
          exists (j - start), o, ws, (snd w). replace (start + (j - start)) with j by lia.
          split; [lia|]. split; [assumption|]. split; [assumption|]. split; [destruct w; simpl in *; congruence|]. apply needed_used. assumption. }
        { destruct N as [(n & o & ws & Hn1 & H)|N]; [left; exists n, o, ws; split; [lia|assumption]|right; assumption]. }
    + intros n p s Hl. destruct (Nat.lt_ge_cases n start) as [Hlt|Hge].
      * rewrite K1 by assumption. apply (u_conn _ _ _ _ U). assumption.
      * replace n with (start + (n - start)) by lia. set (k := n - start) in *. assert (Hk : k < len) by (unfold k; lia).
        destruct (nth_error nodes (start + k)) as [[o ws]|] eqn:En; [|apply nth_error_None in En; lia].
        destruct (Hn k o ws Hk En) as (ss & Es & Ls & Hp). split.
        { intro H. destruct (K3 k p s H) as (o' & ss' & x & H1 & H2). rewrite Es in H1. injection H1 as <- <-.
          assert (p < length ws) as Lp by (rewrite <- Ls; apply nth_error_Some; congruence).
          destruct (nth_error ws p) as [w|] eqn:Ew; [|apply nth_error_None in Ew; lia]. destruct (Hp p w Ew) as (x' & Hx & Px).
          rewrite H2 in Hx. injection Hx as <-. apply (K2 k o ss p x s Es H2) in H.
          rewrite (Src w x k o ws Hk En (nth_error_In _ _ Ew) Px) in H. injection H as <-. exists o, ws, w. auto. }
        { intros (o' & ws' & w & H1 & H2 & ->). rewrite En in H1. injection H1 as <- <-. destruct (Hp p w H2) as (x & Hx & Px).
          apply (K2 k o ss p x _ Es Hx). apply (Src w x k o ws Hk En (nth_error_In _ _ H2) Px). }
Qed.

Lemma upto_all : forall sizes start st re log, start + list_sum sizes <= length nodes -> reads_once op c start sizes -> upto start st re log ->
  exists st' re' log', add_chunks op iter (extract_all op n_outs c start sizes) st = Some st' /\ upto (start + list_sum sizes) st' re' log'.
Proof.
  induction sizes as [|len sizes IH]; intros start st re log L R U; simpl in *.
  - rewrite Nat.add_0_r. exists st, re, log. auto.
  - destruct R as [R1 R2]. rewrite <- chunk_ins in R1. destruct (upto_step start len st re log ltac:(lia) R1 U) as (st1 & re1 & log1 & -> & U1).
    destruct (IH (start + len) st1 re1 log1 ltac:(lia) R2 U1) as (st' & re' & log' & E & U'). exists st', re', log'.
    split; [exact E|]. rewrite Nat.add_assoc. assumption.
Qed.

Lemma inputs_nth : forall i w, nth_error (inputs_of n_in) i = Some w <-> i < n_in /\ w = (0, i).
Proof.
  intros i w. unfold inputs_of. rewrite nth_error_map'. split.
  - intro H. destruct (nth_error (seq 0 n_in) i) as [x|] eqn:E; [|discriminate]. injection H as <-.
    assert (i < length (seq 0 n_in)) as L by (apply nth_error_Some; congruence). rewrite seq_length in L.
    apply (nth_error_nth _ _ 0) in E. rewrite seq_nth in E by assumption. simpl in E. subst. auto.
  - intros [L ->]. rewrite (nth_error_nth' _ 0) by (rewrite seq_length; assumption). rewrite seq_nth by assumption. reflexivity.
Qed.
Lemma inputs_NoDup : NoDup (inputs_of n_in).
Proof. apply NoDup_map_pair. Qed.

Lemma upto_initial : upto 0 (initial op (inputs_of n_in)) (hget (sources op (initial op (inputs_of n_in)))) (fun _ _ => False).
Proof.
  destruct (initial_sources (indexed (inputs_of n_in)) []) as [NS0 HS0].
  { rewrite map_snd_indexed. apply inputs_NoDup. } { intros; intros []. } { constructor. }
  assert (R : forall w, match hget (sources op (initial op (inputs_of n_in))) w with Some s => s = SIn (snd w) /\ fst w = 0 /\ snd w < n_in
                        | None => ~ (fst w = 0 /\ snd w < n_in) end).
  { intro w. unfold initial. cbn [sources]. rewrite HS0. simpl. pose proof (find_indexed (inputs_of n_in) 0 w inputs_NoDup) as F.
    unfold indexed. destruct (find _ _) as [[i ?]|].
    - rewrite Nat.sub_0_r in F. destruct F as [_ F]. apply inputs_nth in F. destruct F as [F ->]. auto.
    - intros [H1 H2]. apply F. apply (nth_error_In _ (snd w)). apply inputs_nth. destruct w; simpl in *. subst. auto. }
  split.
  - split.
    + split; [intros w s Hs; exact Hs|]. intros w Hw. split; [exact Hw|reflexivity].
    + exact NS0.
    + intros t w [].
    + intros s t [].
    + intros m t. split; [intros []|intros (w & [] & _)].
  - reflexivity.
  - intros w s Hs. specialize (R w). rewrite Hs in R. destruct R as (-> & E & _). unfold wire_source. rewrite E. auto.
  - intros w A _ E. specialize (R w). rewrite E in R. apply R. unfold available in A. destruct (fst w); [auto|]. lia.
  - intros n p s H. lia.
Qed.

Lemma roundtrip_ok : forall sizes, list_sum sizes = length nodes -> reads_once op c 0 sizes ->
  exists g, split_reassemble op n_outs iter n_in c sizes = Some g /\ g_ops op g = map fst nodes /\
    forall s t, In (s, t) (g_edges op g) <-> circuit_edge op c s t.
Proof.
  intros sizes Hs R. destruct (upto_all sizes 0 _ _ _ ltac:(lia) R upto_initial) as (st & re & log & E & U).
  unfold split_reassemble, reassemble. rewrite E. eexists. split; [reflexivity|]. cbn [g_ops g_edges]. simpl in U. rewrite Hs in U.
  rewrite (u_ops _ _ _ _ U), firstn_all. split; [reflexivity|]. intros s t.
  rewrite (final_edges op iter iter_perm st re log (cir_outs c) (u_ok _ _ _ _ U)).
  assert (Len : length (st_ops op st) = length nodes) by (rewrite (u_ops _ _ _ _ U), firstn_all, map_length; reflexivity).
  destruct t as [n p|p].
  - transitivity (connected op st re log (TNode n p) s).
    + unfold connected. apply or_iff_compat_l. split.
      * intros (w & [H|(i & H & _)] & Hs'); [eauto|discriminate].
      * intros (w & H & Hs'). eauto.
    + destruct (Nat.lt_ge_cases n (length nodes)) as [Hl|Hl]; [apply (u_conn _ _ _ _ U); assumption|]. split.
      * intros [H|(w & H & _)]; exfalso.
        { destruct (ok_edges _ _ _ _ (u_ok _ _ _ _ U) _ _ H) as (n' & p' & Eq & L). injection Eq as <- _. lia. }
        { destruct (ok_log _ _ _ _ (u_ok _ _ _ _ U) _ _ H) as (_ & n' & p' & Eq & L). injection Eq as <- _. lia. }
      * intros (o & ws & w & H & _). assert (n < length nodes) by (apply nth_error_Some; congruence). lia.
  - simpl. split.
    + intros [H|(w & [H|(i & Ei & H)] & Hs')].
      * destruct (ok_edges _ _ _ _ (u_ok _ _ _ _ U) _ _ H) as (n & q & Eq & _). discriminate.
      * destruct (ok_log _ _ _ _ (u_ok _ _ _ _ U) _ _ H) as (_ & n & q & Eq & _). discriminate.
      * injection Ei as <-. exists w. split; [assumption|]. apply (u_re _ _ _ _ U) in Hs'. tauto.
    + intros (w & H & ->). right. exists w. split; [right; eauto|].
      destruct (re w) as [s|] eqn:Er; [f_equal; apply (u_re _ _ _ _ U); assumption|]. exfalso.
      apply (u_def _ _ _ _ U w); [apply (proj2 wf); eapply nth_error_In; exact H| |assumption].
      right. eapply nth_error_In; exact H.
Qed.

(** *** Values *)
Variable V : Type.
Variable sem : op -> list V -> list V.
Hypothesis sem_len : forall o vs, length (sem o vs) = n_outs o.
Variable ins : list V.
Hypothesis ins_len : length ins = n_in.

Lemma run_commands_app : forall a b store, run_commands op V sem ins store (a ++ b) =
  match run_commands op V sem ins store a with Some s => run_commands op V sem ins s b | None => None end.
Proof.
  induction a as [|[o ws] a IH]; intros b store; simpl; [reflexivity|]. destruct (all_some _) as [vs|]; [apply IH|reflexivity].
Qed.
Lemma run_commands_ext : forall l store store', run_commands op V sem ins store l = Some store' ->
  exists new, store' = store ++ new /\ length new = length l /\
    forall k o ws, nth_error l k = Some (o, ws) -> exists vs, all_some (map (fun w => value V ins (store ++ firstn k new) (wire_source w)) ws) = Some vs
       /\ nth_error new k = Some (sem o vs).
Proof.
  induction l as [|[o ws] l IH]; intros store store' H; simpl in H.
  - injection H as <-. exists []. rewrite app_nil_r. split; [reflexivity|]. split; [reflexivity|]. intros [|k]; discriminate.
  - destruct (all_some (map (fun w => value V ins store (wire_source w)) ws)) as [vs|] eqn:E; [|discriminate].
    destruct (IH _ _ H) as (new & -> & L & N). exists (sem o vs :: new). rewrite <- app_assoc. split; [reflexivity|].
    split; [simpl; congruence|]. intros [|k] o' ss' Hk; simpl in Hk.
    + injection Hk as <- <-. exists vs. simpl. rewrite app_nil_r. auto.
    + destruct (N k o' ss' Hk) as (vals & E1 & E2). exists vals. simpl. rewrite <- app_assoc in E1. auto.
Qed.

Lemma all_some_ext : forall (A B C : Type) (f : A -> option C) (g : B -> option C) l m, length l = length m ->
  (forall p x y, nth_error l p = Some x -> nth_error m p = Some y -> g y <> None -> f x = g y) -> forall vs, all_some (map g m) = Some vs -> all_some (map f l) = Some vs.
Proof.
  intros A B C f g. induction l as [|x l IH]; intros [|y m] L H vs Hv; simpl in *; try discriminate; [assumption|].
  pose proof (H 0 x y eq_refl eq_refl) as H0. destruct (g y) as [v|]; [|discriminate]. rewrite H0 by discriminate.
  destruct (all_some (map g m)) as [r|] eqn:Er; [|discriminate]. rewrite (IH m (eq_add_S _ _ L) (fun p => H (S p)) r Er). assumption.
Qed.

(** The values of the commands, all of them. *)
Variable store : list (list V).
Hypothesis run : run_commands op V sem ins [] nodes = Some store.
Lemma store_len : length store = length nodes.
Proof. destruct (run_commands_ext _ _ _ run) as (new & -> & L & _). assumption. Qed.
Lemma store_nth : forall k o ws, nth_error nodes k = Some (o, ws) -> exists vs,
  all_some (map (fun w => value V ins (firstn k store) (wire_source w)) ws) = Some vs /\ nth_error store k = Some (sem o vs).
Proof. destruct (run_commands_ext _ _ _ run) as (new & -> & _ & H). exact H. Qed.
Lemma value_mono : forall k w, value V ins (firstn k store) (wire_source w) <> None ->
  value V ins (firstn k store) (wire_source w) = value V ins store (wire_source w).
Proof.
  intros k w H. destruct (value V ins (firstn k store) (wire_source w)) as [v|] eqn:E; [|congruence].
  rewrite <- (firstn_skipn k store). symmetry. apply value_app. assumption.
Qed.
Lemma avail_value : forall k w, avail k w -> k <= length nodes -> exists v, value V ins store (wire_source w) = Some v.
Proof.
  intros k w A Lk. unfold available in A. unfold wire_source. destruct (fst w) as [|j]; simpl.
  - rewrite <- ins_len in A. apply nth_error_Some in A. destruct (nth_error ins (snd w)); [eauto|congruence].
  - destruct A as [Hj (o & ws & Ho & Hp)]. destruct (store_nth j o ws Ho) as (vs & _ & ->). rewrite <- (sem_len o vs) in Hp.
    apply nth_error_Some in Hp. destruct (nth_error (sem o vs) (snd w)); [eauto|congruence].
Qed.

(** The environment after [start] commands. *)
Definition env_ok (start : nat) (e : env V) : Prop := forall w, avail start w -> needed start w -> get V e w = value V ins store (wire_source w).

Lemma run_chunk_ok : forall start len e, start + len <= length nodes -> env_ok start e ->
  exists vs outs, all_some (map (get V e) (c_ins op (chunk start len))) = Some vs /\
    run_body op V sem (c_body op (chunk start len)) vs = Some outs /\
    env_ok (start + len) (combine (c_outs op (chunk start len)) outs ++ e).
Proof.
  intros start len e L He. destruct (chunk_nodes start len L) as (L1 & F1 & Hn).
  assert (Ins : forall w, In w (c_ins op (chunk start len)) -> avail start w /\ needed start w).
  { intros w Hw. unfold extract in Hw. simpl in Hw. apply filter_In in Hw. destruct Hw as [Hw Hi]. apply negb_true_iff in Hi.
    unfold group_reads in Hw. apply in_flat_map in Hw. destruct Hw as ([o ws] & H & Hw). apply In_nth_error in H. destruct H as (k & Hk).
    assert (k < len) by (rewrite <- (group_length start len L); apply nth_error_Some; congruence). rewrite group_nth in Hk by assumption.
    split; [eapply outside_before; eassumption|]. left. exists (start + k), o, ws. split; [lia|]. auto. }
  destruct (all_some_intro _ _ (get V e) (c_ins op (chunk start len))) as (vs & Evs).
  { intros w Hw. destruct (Ins w Hw) as [A N]. rewrite (He w A N). destruct (avail_value start w A ltac:(lia)) as (v & ->). discriminate. }
  pose proof (all_some_map _ _ _ _ _ Evs) as [Lvs Hvs].
  assert (In_val : forall i w, nth_error (c_ins op (chunk start len)) i = Some w -> nth_error vs i = value V ins store (wire_source w)).
  { intros i w Hi. destruct (nth_error vs i) as [v|] eqn:Ev.
    - apply Hvs in Ev. destruct Ev as (w' & Hw' & Hg). rewrite Hi in Hw'. injection Hw' as <-. rewrite <- Hg.
      destruct (Ins w (nth_error_In _ _ Hi)) as [A N]. apply He; assumption.
    - apply nth_error_None in Ev. assert (i < length (c_ins op (chunk start len))) by (apply nth_error_Some; congruence). lia. }
  (* node values *)
  assert (Src : forall k m o ws w x, k < len -> k <= m -> nth_error nodes (start + k) = Some (o, ws) -> In w ws -> port_of start len 0 (c_ins op (chunk start len)) w x ->
     cvalue V vs (firstn m (skipn start store)) x = value V ins store (wire_source w)).
  { intros k m o ws w x Hk Hm Hno Hw Px. unfold port_of in Px. destruct (inside start len w) eqn:Ei.
    - subst x. pose proof (proj1 wf _ _ _ _ Hno Hw) as A. unfold available in A. unfold inside in Ei. apply andb_true_iff in Ei.
      destruct Ei as [E1 E2]. apply Nat.ltb_lt in E1. unfold wire_source. destruct (fst w) as [|j]; [lia|]. cbn [cvalue value]. destruct A as [A _].
      rewrite nth_error_firstn by lia. rewrite nth_error_skipn. replace (start + (S j - start - 1)) with j by lia. reflexivity.
    - destruct Px as (i & -> & Hi). simpl. apply In_val. assumption. }
  assert (Run : forall m, m <= len -> run_nodes op V sem vs [] (firstn m (b_nodes op (c_body op (chunk start len)))) = Some (firstn m (skipn start store))).
  { induction m as [|m IH]; intro Hm; [reflexivity|].
    destruct (nth_error nodes (start + m)) as [[o ws]|] eqn:En; [|apply nth_error_None in En; lia].
    destruct (Hn m o ws ltac:(lia) En) as (ss & Es & Ls & Hp).
    replace (firstn (S m) (b_nodes op (c_body op (chunk start len)))) with (firstn m (b_nodes op (c_body op (chunk start len))) ++ [(o, ss)]).
    2:{ replace (S m) with (m + 1) by lia. rewrite firstn_plus. f_equal. pose proof (nth_error_skipn _ m (b_nodes op (c_body op (chunk start len))) 0) as H.
        rewrite Nat.add_0_r, Es in H. destruct (skipn m (b_nodes op (c_body op (chunk start len)))); [discriminate|]. injection H as ->. reflexivity. }
    assert (App : forall a b acc, run_nodes op V sem vs acc (a ++ b) = match run_nodes op V sem vs acc a with Some acc => run_nodes op V sem vs acc b | None => None end).
    { induction a as [|[o1 ss1] a IHa]; intros b acc; simpl; [reflexivity|]. destruct (all_some (map (cvalue V vs acc) ss1)); [apply IHa|reflexivity]. }
    rewrite App, IH by lia. cbn [run_nodes]. destruct (store_nth _ _ _ En) as (vals & Ev & Est).
    assert (Ev' : all_some (map (cvalue V vs (firstn m (skipn start store))) ss) = Some vals).
    { eapply all_some_ext; [exact Ls| |exact Ev]. intros p x w Hx Hw Hnone. cbv beta in Hnone |- *. rewrite (value_mono _ _ Hnone).
      destruct (Hp p w Hw) as (x' & Hx' & Px). rewrite Hx in Hx'. injection Hx' as <-.
      apply (Src m m o ws w x); try assumption; try lia. eapply nth_error_In; exact Hw. }
    rewrite Ev'. f_equal. replace (S m) with (m + 1) by lia. rewrite firstn_plus. f_equal.
    pose proof (nth_error_skipn _ m (skipn start store) 0) as H. rewrite (nth_error_skipn _ start), Nat.add_0_r, Est in H.
    destruct (skipn m (skipn start store)); [discriminate|]. injection H as ->. reflexivity. }
  specialize (Run len ltac:(lia)). rewrite firstn_all2 in Run by lia.
  assert (OutV : forall w, In w (c_outs op (chunk start len)) -> exists v,
     cvalue V vs (firstn len (skipn start store)) (FromNode (fst w - start - 1) (snd w)) = Some v /\ value V ins store (wire_source w) = Some v).
  { intros w Hw. apply chunk_outs_In in Hw; [|assumption]. destruct Hw as (k & o & ws & p & Hk & Ho & Hp & -> & _).
    unfold wire_source. cbn [fst snd]. simpl value. cbn [cvalue]. replace (S (start + k) - start - 1) with k by lia.
    rewrite nth_error_firstn by assumption. rewrite nth_error_skipn. destruct (store_nth _ _ _ Ho) as (vals & _ & ->).
    rewrite <- (sem_len o vals) in Hp. apply nth_error_Some in Hp. destruct (nth_error (sem o vals) p); [eauto|congruence]. }
  assert (exists outs, all_some (map (cvalue V vs (firstn len (skipn start store))) (b_outs op (c_body op (chunk start len)))) = Some outs) as (outs & Eo).
  { apply all_some_intro. intros x Hx. unfold extract in Hx. simpl in Hx. apply in_map_iff in Hx. destruct Hx as (w & <- & Hw).
    destruct (OutV w Hw) as (v & -> & _). discriminate. }
  exists vs, outs. split; [exact Evs|]. split; [unfold run_body; rewrite Run; exact Eo|].
  pose proof (all_some_map _ _ _ _ _ Eo) as [Lo Ho].
  assert (Lc : length (c_outs op (chunk start len)) = length outs) by (rewrite Lo; unfold extract; simpl; rewrite map_length; reflexivity).
  intros w A N. change (get V) with (@hget V). rewrite hget_app.
  destruct (hget (combine (c_outs op (chunk start len)) outs) w) as [v|] eqn:Ew.
  - apply hget_In, combine_nth in Ew. destruct Ew as (i & H1 & H2). apply Ho in H2. destruct H2 as (x & Hx & Hcv).
    rewrite (chunk_bouts _ _ _ _ _ H1 Hx) in Hcv. destruct (OutV w (nth_error_In _ _ H1)) as (v' & E1 & E2). congruence.
  - apply hget_None in Ew. rewrite map_fst_comb in Ew by assumption. apply He.
    + unfold available in *. destruct (fst w) as [|j] eqn:Ef; [assumption|]. destruct A as [A (o & ws & Hno & Hp)].
      destruct (Nat.lt_ge_cases j start) as [Hj|Hj]; [split; [assumption|eauto]|]. exfalso. apply Ew. apply chunk_outs_In; [assumption|].
      exists (j - start), o, ws, (snd w). replace (start + (j - start)) with j by lia.
      split; [lia|]. split; [assumption|]. split; [assumption|]. split; [destruct w; simpl in *; congruence|]. apply needed_used. assumption.
    + destruct N as [(n & o & ws & Hn1 & H)|N]; [left; exists n, o, ws; split; [lia|assumption]|right; assumption].
Qed.

Lemma run_replaced : forall sizes start cs e, start + list_sum sizes <= length nodes -> env_ok start e ->
  Forall2 (replaces op V sem) (extract_all op n_outs c start sizes) cs ->
  exists e', run_chunks op V sem cs e = Some e' /\ env_ok (start + list_sum sizes) e'.
Proof.
  induction sizes as [|len sizes IH]; intros start cs e L He F; simpl in *.
  - inversion F; subst. rewrite Nat.add_0_r. exists e. auto.
  - inversion F as [|a b la lb (Ri & Ro & _ & Rb) F']; subst.
    destruct (run_chunk_ok start len e ltac:(lia) He) as (vs & outs & E1 & E2 & He'). simpl. rewrite Ri, E1, (Rb _ _ E2), Ro.
    destruct (IH (start + len) lb _ ltac:(lia) He' F') as (e' & E & He''). exists e'. split; [exact E|]. rewrite Nat.add_assoc. assumption.
Qed.
End Extract.

Lemma replaced_ok : forall (op : Type) (n_outs : op -> nat) (n_in : nat) (c : circuit op)
  (iter : forall A : Type, list (name * A) -> list (name * A)) (V : Type) (sem : op -> list V -> list V) ins outs sizes cs,
  (forall A (l : list (name * A)), Permutation (iter A l) l) ->
  circuit_wf op n_outs n_in c -> (forall o vs, length (sem o vs) = n_outs o) -> length ins = n_in ->
  run_circuit op V sem c ins = Some outs -> list_sum sizes = length (cir_nodes op c) -> reads_once op c 0 sizes ->
  Forall2 (replaces op V sem) (extract_all op n_outs c 0 sizes) cs ->
  exists g, reassemble op iter (inputs_of n_in) (cir_outs op c) cs = Some g /\
    g_ops op g = flat_map (fun ch => map fst (b_nodes op (c_body op ch))) cs /\
    computes op V sem g (arities op cs) ins outs.
Proof.
  intros op n_outs n_in c iter V sem ins outs sizes cs iter_perm wf sem_len Li Hrun Hs R F.
  unfold run_circuit in Hrun. destruct (run_commands op V sem ins [] (cir_nodes op c)) as [store|] eqn:Er; [|discriminate].
  assert (Outs : flat_map (c_outs op) cs = flat_map (c_outs op) (extract_all op n_outs c 0 sizes)).
  { clear -F. induction F as [|a b la lb (_ & Ro & _) F IH]; simpl; [reflexivity|]. rewrite Ro, IH. reflexivity. }
  destruct (run_replaced op n_outs n_in c wf V sem sem_len ins Li store Er sizes 0 cs (combine (inputs_of n_in) ins) ltac:(lia)) as (e' & E' & He').
  - intros w A _. unfold available in A. unfold wire_source. destruct (fst w) as [|j] eqn:Ef; [|lia]. simpl.
    assert (w = (0, snd w)) as -> by (destruct w; simpl in *; congruence). cbn [snd].
    rewrite <- Li in A. destruct (nth_error ins (snd w)) as [v|] eqn:Ev; [|apply nth_error_None in Ev; lia].
    change (get V) with (@hget V). apply In_hget.
    + rewrite map_fst_comb; [apply inputs_NoDup|]. unfold inputs_of. rewrite map_length, seq_length. congruence.
    + apply combine_nth. exists (snd w). split; [|assumption]. apply inputs_nth. split; [lia|reflexivity].
  - exact F.
  - apply reassemble_ok with (e' := e'); try assumption.
    + rewrite Outs. apply NoDup_app_intro; [apply inputs_NoDup|apply outs_NoDup; lia|].
      intros w Hw H. apply in_flat_map in H. destruct H as (ch & Hc & H). apply later_outs with (w := w) in Hc; [|lia|assumption].
      unfold inputs_of in Hw. apply in_map_iff in Hw. destruct Hw as (p & <- & _). simpl in Hc. lia.
    + unfold inputs_of. rewrite map_length, seq_length. assumption.
    + clear -F R. revert R. revert F. generalize 0 as start. revert cs. induction sizes as [|len sizes IH]; intros cs start F R ch Hc; simpl in F, R; inversion F as [|a b la lb (Ri & Ro & Rl & _) F']; subst.
      * destruct Hc.
      * destruct R as [R1 R2]. destruct Hc as [<-|Hc]; [|exact (IH lb _ F' R2 ch Hc)].
        rewrite Ri, Ro, Rl, chunk_ins. split; [assumption|]. unfold extract. simpl. rewrite map_length. reflexivity.
    + eapply all_some_ext; [reflexivity| |exact Hrun]. intros p x y Hx Hy Hn. rewrite Hx in Hy. injection Hy as <-.
      simpl in He'. rewrite Hs in He'. apply He'.
      * apply (proj2 wf). eapply nth_error_In; exact Hx.
      * right. eapply nth_error_In; exact Hx.
Qed.
