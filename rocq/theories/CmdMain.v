(** Proofs of the properties of command iteration (property C19). *)
From Coq Require Import List Bool Arith Lia.
From Verif Require Import TopoSpec TopoModel TopoProofs CmdSpec CmdModel CmdOrder CmdUnits.
Import ListNotations.

Lemma C19_walk_pf : forall g outer, region_ok g outer -> (exists l, order_of g l) -> exists l, region_order g = Some l /\ order_of g l.
Proof.
  intros g outer R (l0 & N0 & M0 & P0). pose proof R as (N & _). assert (Ni : NoDup (map nid g)) by (eapply Ng; eauto).
  assert (Fg : forall m, In m g -> find (fun x => nid x =? nid m) g = Some m).
  { intros m Hm. pose proof (fun a b Ha Hb => same_node g outer N a b Ha Hb) as Same. destruct (find (fun x => nid x =? nid m) g) as [x|] eqn:E.
    - apply find_some in E. destruct E as [Hx E]. apply Nat.eqb_eq in E. f_equal. apply Same; assumption.
    - exfalso. pose proof (find_none _ _ E m Hm) as K. simpl in K. rewrite Nat.eqb_refl in K. discriminate. }
  assert (Rp : forall m p, In m g -> (In p (region_preds g (nid m)) <-> In p (preds m) /\ In p (map nid g))).
  { intros m p Hm. unfold region_preds. rewrite (Fg m Hm), filter_In, existsb_exists. split; [intros [A (x & B & C)]; apply Nat.eqb_eq in C; subst; auto|intros [A B]; split; [assumption|]; exists p; rewrite Nat.eqb_refl; auto]. }
  destruct (topo_ok (map nid g) (region_succs g) (region_preds g)) as (l & E & W).
  - assumption.
  - intros n m Hn Hm. apply in_map_iff in Hm. destruct Hm as (m' & <- & Hm). rewrite (Rp m' n Hm). unfold region_succs. rewrite in_flat_map. split.
    + intros (x & Hx & K). apply in_map_iff in K. destruct K as (y & Ey & K). apply filter_In in K. destruct K as [K1 K2]. apply Nat.eqb_eq in K2. subst y. rewrite (same_node g outer N m' x); auto.
    + intros [A _]. exists m'. split; [assumption|]. apply in_map_iff. exists n. split; [reflexivity|]. apply filter_In. split; [assumption|apply Nat.eqb_refl].
  - intros n m Hn Hm. unfold region_succs in Hm. apply in_flat_map in Hm. destruct Hm as (k & Hk & A). apply in_map_iff in A. destruct A as (x & <- & _). apply in_map. assumption.
  - exists l. split; [exact E|]. pose proof W as ((V1 & V2 & V3) & V4). split; [assumption|]. split.
    + intro n. split; [apply V2|]. intro Hn. apply V4. apply M0 in Hn.
      assert (K : forall l1 l2, l0 = l1 ++ l2 -> forall x, In x l1 -> grounded (map nid g) (region_preds g) x).
      { induction l1 as [|y l1 IH] using rev_ind; intros l2 E0 x Hx; [destruct Hx|]. rewrite <- app_assoc in E0. simpl in E0. apply in_app_or in Hx. destruct Hx as [Hx|[->|[]]]; [eapply IH; eauto|].
        assert (Hg : In x (map nid g)) by (apply M0; rewrite E0; apply in_or_app; right; left; reflexivity). apply in_map_iff in Hg. destruct Hg as (m & <- & Hm). constructor; [apply in_map; assumption|].
        intros p Hp. apply (Rp m p Hm) in Hp. destruct Hp as [Hp Hp']. apply in_map_iff in Hp'. destruct Hp' as (q & <- & Hq). eapply IH; [exact E0|]. eapply P0; eauto. }
      apply (K l0 []); [symmetry; apply app_nil_r|assumption].
    + intros l1 n l2 m El Hn Hm Pm. apply (V3 l1 (nid n) l2 El). apply Rp; [assumption|]. split; [assumption|apply in_map; assumption].
Qed.

Lemma C19_nodes_pf : forall g outer l, region_ok g outer -> order_of g l ->
  exists cs, commands g outer l = Some cs /\ NoDup (map (fun c => nid (cnode c)) cs) /\ (forall c, In c cs -> In (cnode c) g) /\
    (forall n, In n g -> ((exists c, In c cs /\ cnode c = n) <-> is_io n = false /\ needed g (nid n))) /\
    (forall l1 c l2 m, cs = l1 ++ c :: l2 -> In m g -> is_io m = false -> In (nid m) (preds (cnode c)) -> exists d, In d l1 /\ cnode d = m) /\
    length cs + 2 <= length g.
Proof.
  intros g outer l R O. pose proof R as (N & (i & o & Hi & Ho & Ti & To & Ii & Oo & Ui & Uo) & _). destruct (nodes_ok g outer l N O) as (ns & E & Nn & M & P). unfold commands. rewrite E.
  destruct (inputs_ok g outer R) as (U & _ & _).
  assert (Ig : forall n, In n ns -> In n (map nid g)). { intros n Hn. apply M in Hn. destruct Hn as [x Hx _|x y Hx _ _ _]; apply in_map; assumption. }
  destruct (process_ok g outer R ns [] [] (input_units g) U Nn (fun _ _ K => K) Ig) as (cs & Ec & (keep & Mk & Ek) & Gc & _ & _).
  { intros l1 n l2 m El Hn Hm Pm. rewrite app_nil_r. eapply P; eauto. }
  exists cs. split; [exact Ec|].
  assert (Nc : NoDup (map (fun c => nid (cnode c)) cs)) by (rewrite Mk; apply NoDup_filter; assumption).
  assert (Iff : forall n, In n g -> ((exists c, In c cs /\ cnode c = n) <-> is_io n = false /\ needed g (nid n))).
  { intros n Hn. split.
    - intros (c & Hc & <-). split; [apply (Gc c Hc)|]. apply M. assert (K : In (nid (cnode c)) (filter keep ns)) by (rewrite <- Mk; apply in_map_iff; eauto). apply filter_In in K. tauto.
    - intros [Io Nd]. assert (K : In (nid n) (filter keep ns)) by (apply filter_In; split; [apply M; assumption|rewrite (Ek n Hn), Io; reflexivity]). rewrite <- Mk in K. apply in_map_iff in K. destruct K as (c & Ec' & Hc). exists c. split; [assumption|]. eapply same_node; eauto. apply (Gc c Hc). }
  split; [assumption|]. split; [intros c Hc; apply (Gc c Hc)|]. split; [assumption|]. split.
  - intros l1 c l2 m El Hm Im Pm. subst cs. assert (Hc : In (cnode c) g) by (apply Gc; apply in_or_app; right; left; reflexivity).
    assert (Sp : forall ns : list nat, map (fun c => nid (cnode c)) (l1 ++ c :: l2) = filter keep ns -> exists n1 n2, ns = n1 ++ nid (cnode c) :: n2 /\ filter keep n1 = map (fun c => nid (cnode c)) l1).
    { clear. induction l1 as [|d l1 IH]; intros ns; induction ns as [|x ns IHn]; intro H; try discriminate.
      - simpl in H. destruct (keep x) eqn:Kx.
        + injection H as <- H. exists [], ns. auto.
        + destruct (IHn H) as (n1 & n2 & -> & F). exists (x :: n1), n2. simpl. rewrite Kx. auto.
      - simpl in H. destruct (keep x) eqn:Kx.
        + injection H as <- H. destruct (IH ns H) as (n1 & n2 & -> & F). exists (nid (cnode d) :: n1), n2. simpl. rewrite Kx, F. auto.
        + destruct (IHn H) as (n1 & n2 & -> & F). exists (x :: n1), n2. simpl. rewrite Kx. auto. }
    destruct (Sp ns Mk) as (n1 & n2 & -> & F). pose proof (P n1 (cnode c) n2 m eq_refl Hc Hm Pm) as K.
    assert (K' : In (nid m) (filter keep n1)) by (apply filter_In; split; [assumption|rewrite (Ek m Hm), Im; reflexivity]). rewrite F in K'. apply in_map_iff in K'. destruct K' as (d & Ed & Hd). exists d. split; [assumption|]. eapply same_node; eauto. apply Gc. apply in_or_app. auto.
  - assert (L : length (nid i :: nid o :: map (fun c => nid (cnode c)) cs) <= length (map nid g)).
    { apply NoDup_incl_length.
      - assert (Z : forall x, In x g -> is_io x = true -> ~ In (nid x) (map (fun c => nid (cnode c)) cs)).
        { intros x Hx Ix K. apply in_map_iff in K. destruct K as (c & Ec' & Hc). destruct (Gc c Hc) as [A B]. rewrite (same_node g outer N (cnode c) x A Hx Ec') in B. congruence. }
        constructor; [|constructor; [|assumption]].
        + intros [K|K]; [assert (o = i) by (eapply same_node; eauto); congruence|]. eapply (Z i); eauto. unfold is_io. rewrite Ti. reflexivity.
        + eapply (Z o); eauto. unfold is_io. rewrite To. reflexivity.
      - intros x [<-|[<-|K]]; [apply in_map; assumption|apply in_map; assumption|]. apply in_map_iff in K. destruct K as (c & <- & Hc). apply in_map. apply (Gc c Hc). }
    simpl in L. rewrite !map_length in L. lia.
Qed.

Lemma C19_threading_pf : forall g outer l cs, region_ok g outer -> order_of g l -> commands g outer l = Some cs ->
  forall l1 c l2, cs = l1 ++ c :: l2 ->
    length (cin c) = length (linear_ins (cnode c)) /\ length (cout c) = length (linear_outs (cnode c)) /\
    Forall2 (fun w k => live g l1 w k) (linear_ins (cnode c)) (cin c) /\
    (forall j, j < length (cin c) -> j < length (cout c) -> nth_error (cout c) j = nth_error (cin c) j) /\
    (forall w k k', live g l1 w k -> live g l1 w k' -> k = k').
Proof.
  intros g outer l cs R O. pose proof R as (N & _). destruct (nodes_ok g outer l N O) as (ns & E & Nn & M & P). unfold commands. rewrite E. intro Ec.
  destruct (inputs_ok g outer R) as (U & _ & _).
  assert (Ig : forall n, In n ns -> In n (map nid g)). { intros n Hn. apply M in Hn. destruct Hn as [x Hx _|x y Hx _ _ _]; apply in_map; assumption. }
  destruct (process_ok g outer R ns [] [] (input_units g) U Nn (fun _ _ K => K) Ig) as (cs' & Ec' & (keep & Mk & Ek) & Gc & T & _).
  { intros l1 n l2 m El Hn Hm Pm. rewrite app_nil_r. eapply P; eauto. }
  assert (cs' = cs) by congruence. subst cs'. intros l1 c l2 El. destruct (T l1 c l2 El) as (T1 & T2 & T3 & T4). simpl in T3.
  split; [assumption|]. split; [assumption|]. split; [assumption|]. split; [assumption|].
  assert (Nc : NoDup (map (fun c => nid (cnode c)) cs)) by (rewrite Mk; apply NoDup_filter; assumption).
  intros w k k' [A _] [B _]. subst cs. rewrite map_app in Nc.
  assert (Gl : forall d, In d l1 -> In (cnode d) g /\ is_io (cnode d) = false) by (intros d Hd; apply Gc; apply in_or_app; auto).
  assert (Fc : forall (n : node) (b : list nat) k k', In (w, k) (combine (linear_outs n) b) -> In (w, k') (combine (linear_outs n) b) -> k = k').
  { intros n b. pose proof (linear_outs_nodup n) as Z. revert b. induction (linear_outs n) as [|x r IH]; intros [|y b] a a' H H'; try (destruct H; fail). simpl in H, H'. inversion Z as [|? ? Zx Zr]; subst.
    destruct H as [H|H], H' as [H'|H'].
    - congruence.
    - injection H as -> ->. apply combine_keys in H'. contradiction.
    - injection H' as -> ->. apply combine_keys in H. contradiction.
    - eapply IH; eauto. }
  unfold labels in A, B. apply in_app_or in A. apply in_app_or in B. rewrite in_flat_map in A. rewrite in_flat_map in A. rewrite in_flat_map in B. rewrite in_flat_map in B.
  destruct A as [(n & Hn & A)|(d & Hd & A)], B as [(n' & Hn' & B)|(d' & Hd' & B)].
  - destruct (ntag n) eqn:Tn; try destruct A. destruct (ntag n') eqn:Tn'; try destruct B.
    assert (n = n'). { eapply same_node; eauto. transitivity (fst w); [symmetry|]; eapply linear_outs_id; eapply combine_keys; eauto. }
    subst n'. eapply Fc; eauto.
  - exfalso. destruct (ntag n) eqn:Tn; try destruct A. assert (n = cnode d'). { eapply same_node; eauto; [apply (Gl d' Hd')|]. transitivity (fst w); [symmetry|]; eapply linear_outs_id; eapply combine_keys; eauto. }
    destruct (Gl d' Hd') as [_ K]. subst n. unfold is_io in K. rewrite Tn in K. discriminate.
  - exfalso. destruct (ntag n') eqn:Tn; try destruct B. assert (n' = cnode d). { eapply same_node; eauto; [apply (Gl d Hd)|]. transitivity (fst w); [symmetry|]; eapply linear_outs_id; eapply combine_keys; eauto. }
    destruct (Gl d Hd) as [_ K]. subst n'. unfold is_io in K. rewrite Tn in K. discriminate.
  - assert (Ed : nid (cnode d) = nid (cnode d')). { transitivity (fst w); [symmetry|]; eapply linear_outs_id; eapply combine_keys; eauto. }
    assert (N1 : NoDup (map (fun c => nid (cnode c)) l1)).
    { revert Nc. generalize (map (fun c0 => nid (cnode c0)) (c :: l2)) as z. intros z. generalize (map (fun c0 => nid (cnode c0)) l1) as y. induction y as [|a y IH]; intro Nc; [constructor|]. simpl in Nc. inversion Nc as [|? ? Na Ny]; subst. constructor; [intro; apply Na, in_or_app; auto|auto]. }
    assert (d = d'). { clear - N1 Hd Hd' Ed. induction l1 as [|x r IH]; [destruct Hd|]. simpl in N1. inversion N1 as [|? ? Na Nr]; subst. destruct Hd as [->|Hd], Hd' as [->|Hd'].
      - reflexivity.
      - exfalso. apply Na. rewrite Ed. apply in_map_iff. exists d'. auto.
      - exfalso. apply Na. rewrite <- Ed. apply in_map_iff. exists d. auto.
      - auto. }
    subst d'. eapply Fc; eauto.
Qed.

Lemma C19_distinct_partial_pf : forall g outer l cs, region_ok g outer -> order_of g l -> commands g outer l = Some cs ->
  no_alloc_after_free (map cnode cs) -> forall l1 l2, cs = l1 ++ l2 -> forall w w' k, live g l1 w k -> live g l1 w' k -> w = w'.
Proof.
  intros g outer l cs R O. pose proof R as (N & _). destruct (nodes_ok g outer l N O) as (ns & E & Nn & M & P). unfold commands. rewrite E. intro Ec.
  destruct (inputs_ok g outer R) as (U & Nv & Bv).
  assert (Ig : forall n, In n ns -> In n (map nid g)). { intros n Hn. apply M in Hn. destruct Hn as [x Hx _|x y Hx _ _ _]; apply in_map; assumption. }
  destruct (process_ok g outer R ns [] [] (input_units g) U Nn (fun _ _ K => K) Ig) as (cs' & Ec' & _ & Gc & _ & X).
  { intros l1 n l2 m El Hn Hm Pm. rewrite app_nil_r. eapply P; eauto. }
  assert (cs' = cs) by congruence. subst cs'. intros NA l1 l2 El. exact (X Nv (or_introl Bv) NA l1 l2 El).
Qed.

Lemma C19_distinct_refuted_pf : exists g outer l cs, region_ok g outer /\ order_of g l /\ commands g outer l = Some cs /\
  exists w w' k, live g cs w k /\ live g cs w' k /\ w <> w'.
Proof.
  exists [{| nid := 0; ntag := TInput; ins := []; order_in := []; outs := [true; true] |};
          {| nid := 1; ntag := TOther; ins := [(true, (0, 0))]; order_in := []; outs := [] |};
          {| nid := 2; ntag := TOther; ins := []; order_in := [1]; outs := [true] |};
          {| nid := 3; ntag := TOutput; ins := [(true, (0, 1)); (true, (2, 0))]; order_in := []; outs := [] |}], [], [0; 1; 2; 3].
  eexists. split; [|split; [|split; [reflexivity|]]].
  - split; [simpl; repeat constructor; simpl; intuition discriminate|]. split; [|split; [|split]].
    + eexists _, _. split; [left; reflexivity|]. split; [right; right; right; left; reflexivity|]. repeat (split; [reflexivity|]). simpl. split; intros n [<-|[<-|[<-|[<-|[]]]]]; simpl; congruence.
    + intros n [<-|[<-|[<-|[<-|[]]]]]; simpl; discriminate.
    + intros n w [<-|[<-|[<-|[<-|[]]]]]; simpl; try tauto.
      * intros [<-|[]]. eexists. split; [left; reflexivity|simpl; auto].
      * intros [<-|[<-|[]]]; [eexists; split; [left; reflexivity|simpl; auto]|eexists; split; [right; right; left; reflexivity|simpl; auto]].
    + simpl. repeat constructor; simpl; intuition discriminate.
  - split; [repeat constructor; simpl; intuition discriminate|]. split; [simpl; tauto|].
    intros l1 n l2 m E Hn Hm. simpl in Hn, Hm.
    repeat (destruct l1 as [|? l1]; simpl in E; [injection E as E1 E2; destruct Hn as [<-|[<-|[<-|[<-|[]]]]]; try discriminate E1; destruct Hm as [<-|[<-|[<-|[<-|[]]]]]; simpl; intuition (try discriminate; auto)|injection E as <- E]). destruct l1; discriminate E.
  - exists (0, 1), (2, 0), 1. split; [|split; [|discriminate]].
    + split; [simpl; auto|]. intros c [<-|[<-|[]]]; simpl; intuition discriminate.
    + split; [simpl; auto|]. intros c [<-|[<-|[]]]; simpl; intuition discriminate.
Qed.

Lemma C19_ports_partial_pf : forall g outer l cs, region_ok g outer -> order_of g l -> commands g outer l = Some cs ->
  forall l1 c l2, cs = l1 ++ c :: l2 -> (exists a b, ins (cnode c) = a ++ b /\ Forall (fun p => fst p = true) a /\ Forall (fun p => fst p = false) b) ->
  exists r, command_inputs c = Some r /\ Forall2 (fun p x => match x with ULinear k => fst p = true /\ live g l1 (snd p) k | UWire w => fst p = false /\ w = snd p end) (ins (cnode c)) r.
Proof.
  intros g outer l cs R O E l1 c l2 El (a & b & Ei & Fa & Fb). destruct (C19_threading_pf g outer l cs R O E l1 c l2 El) as (_ & _ & F & _).
  unfold command_inputs. rewrite Ei. unfold linear_ins in F. rewrite Ei in F.
  assert (La : forall a, Forall (fun p : bool * wire => fst p = true) a -> map snd (filter fst (a ++ b)) = map snd a).
  { clear - Fb. assert (Zb : filter fst b = []). { induction Fb as [|[x w] b H Fb IH]; [reflexivity|]. simpl in *. subst. assumption. }
    induction a as [|[x w] a IH]; intro Fa; simpl; [rewrite Zb; reflexivity|]. inversion Fa as [|? ? H Fa']; subst. simpl in H. subst. simpl. rewrite IH; auto. }
  rewrite (La a Fa) in F. clear La Ei El E.
  assert (Hb : forall u p, exists r, label_ports u p b = Some r /\ Forall2 (fun p x => match x with ULinear k => fst p = true /\ live g l1 (snd p) k | UWire w => fst p = false /\ w = snd p end) b r).
  { intro u. induction Fb as [|[x w] b H Fb IH]; intro p; [exists []; auto|]. simpl in H. subst. simpl. destruct (IH (S p)) as (r & -> & Fr). exists (UWire w :: r). auto. }
  assert (Ha : forall a u pre, Forall (fun p : bool * wire => fst p = true) a -> Forall2 (fun w k => live g l1 w k) (map snd a) u ->
    exists r, label_ports (pre ++ u) (length pre) (a ++ b) = Some r /\ Forall2 (fun p x => match x with ULinear k => fst p = true /\ live g l1 (snd p) k | UWire w => fst p = false /\ w = snd p end) (a ++ b) r).
  { clear - Hb. induction a as [|[x w] a IH]; intros u pre Fa F; [apply Hb|]. inversion Fa as [|? ? H Fa']; subst. simpl in H. subst. simpl in F. inversion F as [|? k ? u' Lw F']; subst.
    destruct (IH u' (pre ++ [k]) Fa' F') as (r & Er & Fr). rewrite <- app_assoc in Er. rewrite app_length in Er. simpl in Er. replace (length pre + 1) with (S (length pre)) in Er by lia.
    simpl. rewrite nth_error_app2 by lia. rewrite Nat.sub_diag. simpl. rewrite Er. exists (ULinear k :: r). auto. }
  apply (Ha a (cin c) [] Fa F).
Qed.

Lemma C19_outputs_partial_pf : forall g outer l cs, region_ok g outer -> order_of g l -> commands g outer l = Some cs ->
  forall c, In c cs -> (exists a b, outs (cnode c) = repeat true a ++ repeat false b) ->
  exists r, command_outputs c = Some r /\ length r = length (outs (cnode c)) /\
    forall p, (nth_error (outs (cnode c)) p = Some true -> exists k, nth_error r p = Some (ULinear k) /\ In ((nid (cnode c), p), k) (labels g cs)) /\
              (nth_error (outs (cnode c)) p = Some false -> nth_error r p = Some (UWire (nid (cnode c), p))).
Proof.
  intros g outer l cs R O E c Hc (a & b & Eo). apply in_split in Hc. destruct Hc as (l1 & l2 & El). destruct (C19_threading_pf g outer l cs R O E l1 c l2 El) as (_ & Lo & _).
  assert (Ll : In c cs) by (rewrite El; apply in_or_app; right; left; reflexivity).
  assert (Lab : forall w k, In (w, k) (combine (linear_outs (cnode c)) (cout c)) -> In (w, k) (labels g cs)) by (intros w k K; unfold labels; apply in_or_app; right; apply in_flat_map; eauto).
  unfold command_outputs. unfold linear_outs in *. rewrite Eo in *. generalize dependent (nid (cnode c)). intros id Lo Lab.
  assert (Lp : forall a p, linear_ports id p (repeat true a ++ repeat false b) = map (fun q => (id, q)) (seq p a)).
  { clear. assert (Z : forall n p, linear_ports id p (repeat false n) = []) by (induction n; simpl; auto). induction a as [|a IH]; intro p; simpl; [apply Z|]. rewrite IH. reflexivity. }
  rewrite Lp in Lo, Lab. rewrite map_length, seq_length in Lo. rewrite app_length, !repeat_length. clear Lp El Ll E O R Eo.
  assert (Fb : forall u p b, label_ports u p (combine (repeat false b) (map (fun q => (id, q)) (seq p b))) = Some (map (fun q => UWire (id, q)) (seq p b))).
  { clear. intros u p b. revert p. induction b as [|b IH]; intro p; [reflexivity|]. simpl. rewrite IH. reflexivity. }
  assert (Fa : forall a u pre, length u = a -> label_ports (pre ++ u) (length pre) (combine (repeat true a ++ repeat false b) (map (fun q => (id, q)) (seq (length pre) (a + b)))) = Some (map ULinear u ++ map (fun q => UWire (id, q)) (seq (length pre + a) b))).
  { clear - Fb. induction a as [|a IH]; intros u pre L.
    - destruct u; [|discriminate]. simpl. rewrite Nat.add_0_r. apply Fb.
    - destruct u as [|k u]; [discriminate|]. simpl. rewrite nth_error_app2 by lia. rewrite Nat.sub_diag. simpl. specialize (IH u (pre ++ [k])). rewrite <- app_assoc, app_length in IH. simpl in IH. replace (length pre + 1) with (S (length pre)) in IH by lia. rewrite IH by (simpl in L; lia). replace (length pre + S a) with (S (length pre + a)) by lia. reflexivity. }
  pose proof (Fa a (cout c) [] Lo) as Ea. simpl in Ea. rewrite Ea. clear Ea. eexists. split; [reflexivity|]. split; [rewrite app_length, !map_length, seq_length, Lo; reflexivity|]. intro p.
  assert (Nr : forall (x : bool) n q, nth_error (repeat x n) q = if q <? n then Some x else None).
  { clear. intros x n. induction n as [|n IH]; intros [|q]; simpl; auto. rewrite IH. reflexivity. }
  assert (Ns : forall s n q, q < n -> nth_error (seq s n) q = Some (s + q)).
  { clear. intros s n. revert s. induction n as [|n IH]; intros s q L; [lia|]. destruct q; simpl; [f_equal; lia|]. rewrite IH by lia. f_equal. lia. }
  destruct (le_lt_dec a p) as [L|L].
  - rewrite nth_error_app2 by (rewrite repeat_length; assumption). rewrite repeat_length, Nr. split; [destruct (p - a <? b); discriminate|]. intro K. destruct (Nat.ltb_spec (p - a) b) as [Q|]; [|discriminate].
    rewrite nth_error_app2 by (rewrite map_length; lia). rewrite map_length, Lo. rewrite (map_nth_error _ _ _ (Ns (0 + a) b (p - a) Q)). do 3 f_equal. simpl. lia.
  - rewrite nth_error_app1 by (rewrite repeat_length; assumption). rewrite Nr. destruct (Nat.ltb_spec p a) as [_|]; [|lia]. split; [|discriminate]. intros _. destruct (nth_error (cout c) p) as [k|] eqn:Ek; [|apply nth_error_None in Ek; lia].
    exists k. split; [rewrite nth_error_app1 by (rewrite map_length; lia); apply map_nth_error; assumption|]. apply Lab.
    apply (nth_error_In _ p). pose proof (map_nth_error (fun q => (id, q)) _ _ (Ns 0 a p L)) as Ew. clear - Ew Ek. simpl in Ew. revert Ew Ek. generalize (map (fun q => (id, q)) (seq 0 a)), (cout c), (id, p). intros x y w. revert x y. induction p as [|p IH]; intros [|x0 x] [|y0 y] A B; try discriminate; simpl in *; [congruence|auto].
Qed.

Lemma C19_ports_refuted_pf : forall g outer l cs, region_ok g outer -> order_of g l -> commands g outer l = Some cs -> forall c, In c cs ->
  (forall a w b w' d, ins (cnode c) = a ++ (false, w) :: b ++ (true, w') :: d -> command_inputs c = None) /\
  (forall a b d, outs (cnode c) = a ++ false :: b ++ true :: d -> command_outputs c = None).
Proof.
  intros g outer l cs R O E c Hc. apply in_split in Hc. destruct Hc as (l1 & l2 & El). destruct (C19_threading_pf g outer l cs R O E l1 c l2 El) as (Li & Lo & _).
  assert (Key : forall u ps p q w, nth_error ps q = Some (true, w) -> length u <= p + q -> label_ports u p ps = None).
  { clear. intros u ps. induction ps as [|[x w] ps IH]; intros p [|q] v H L; try discriminate; simpl in *.
    - injection H as -> ->. replace (nth_error u p) with (@None nat) by (symmetry; apply nth_error_None; lia). reflexivity.
    - rewrite (IH (S p) q v H) by lia. destruct (if x then _ else _); reflexivity. }
  (* the last linear port has too large a number *)
  assert (Last : forall (ps : list (bool * wire)) a w b w' d, ps = a ++ (false, w) :: b ++ (true, w') :: d -> exists q v, nth_error ps q = Some (true, v) /\ length (filter fst ps) <= q).
  { assert (Any : forall ps : list (bool * wire), filter fst ps <> [] -> exists q v, nth_error ps q = Some (true, v) /\ length (filter fst ps) <= S q).
    { induction ps as [|[x v] ps IH]; intro H; [contradiction|]. destruct (filter fst ps) as [|y r] eqn:F.
      - destruct x; simpl in H; rewrite F in H; [|contradiction]. exists 0, v. simpl. rewrite F. simpl. auto.
      - rewrite <- F in *. destruct IH as (q & z & A & B); [rewrite F; discriminate|]. exists (S q), z. split; [assumption|]. simpl. destruct x; simpl; lia. }
    intros ps a w b w' d ->. destruct (Any (b ++ (true, w') :: d)) as (q & v & A & B); [rewrite filter_app; simpl; destruct (filter fst b); discriminate|].
    exists (length a + S q), v. split; [rewrite nth_error_app2 by lia; replace (length a + S q - length a) with (S q) by lia; exact A|].
    rewrite filter_app, app_length. simpl. assert (length (filter fst a) <= length a) by (clear; induction a as [|[x v] a IH]; simpl; [lia|]; destruct x; simpl; lia). lia. }
  split.
  - intros a w b w' d Ei. destruct (Last _ _ _ _ _ _ Ei) as (q & v & A & B). unfold command_inputs. apply (Key _ _ 0 q v A). rewrite Li. unfold linear_ins. rewrite map_length. exact B.
  - intros a b d Eo. unfold command_outputs. set (ps := combine (outs (cnode c)) (map (fun p => (nid (cnode c), p)) (seq 0 (length (outs (cnode c)))))).
    assert (Lf : forall id os p, length (filter fst (combine os (map (fun p => (id, p)) (seq p (length os))))) = length (linear_ports id p os)).
    { clear. induction os as [|x os IH]; intro p; [reflexivity|]. simpl. destruct x; simpl; rewrite IH; reflexivity. }
    assert (Sp : forall (id : nat) os p, os = a ++ false :: b ++ true :: d -> exists a' w b' w' d', combine os (map (fun p => (id, p)) (seq p (length os))) = a' ++ (false, w) :: b' ++ (true, w') :: d').
    { clear. assert (Z : forall (id : nat) e f p, exists b' w' d', combine (e ++ true :: f) (map (fun p => (id, p)) (seq p (length (e ++ true :: f)))) = b' ++ (true, w') :: d').
      { intros id. induction e as [|x e IH]; intros f p; simpl; [exists [], (id, p); eexists; reflexivity|]. destruct (IH f (S p)) as (b' & w' & d' & ->). exists ((x, (id, p)) :: b'), w', d'. reflexivity. }
      intros id. induction a as [|x a IH]; intros os p ->; simpl.
      - destruct (Z id b d (S p)) as (b' & w' & d' & ->). exists [], (id, p), b', w', d'. reflexivity.
      - destruct (IH _ (S p) eq_refl) as (a' & w & b' & w' & d' & ->). exists ((x, (id, p)) :: a'), w, b', w', d'. reflexivity. }
    destruct (Sp (nid (cnode c)) _ 0 Eo) as (a' & w & b' & w' & d' & Ep). destruct (Last _ _ _ _ _ _ Ep) as (q & v & A & B). apply (Key _ _ 0 q v A). rewrite Lo. unfold linear_outs. rewrite <- Lf. exact B.
Qed.

