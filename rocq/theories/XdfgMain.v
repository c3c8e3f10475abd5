(** Proofs of the properties of regions that are turned into dataflow graphs. *)
From Coq Require Import List Bool Arith Lia.
From Verif Require Import XdfgModel XdfgSpec XdfgProofs.
Import ListNotations.

Lemma C105_outputs_partial_pf : forall g input output tag rest f order x,
  tagged g input output tag rest f order -> unused x g ->
  exists g', remove_empty_tuple input output x g = Changed g' rest
    /\ get_op x (g_nodes g') = Some (XOutput rest)
    /\ (forall p, p < length rest -> linked_outputs g' x p = [f p])
    /\ linked_outputs g' x (length rest) = order
    /\ (forall l, fst (snd l) <> x -> (In l (g_links g') <->
          In l (g_links g) /\ fst (fst l) <> output /\ fst (fst l) <> tag
          /\ fst (snd l) <> output /\ fst (snd l) <> tag))
    /\ (forall n, n <> output -> n <> tag -> n <> x -> get_op n (g_nodes g') = get_op n (g_nodes g)).
Proof.
  intros g input output tag rest f order x h (hx & hxl).
  destruct h as [ ho ht (q & hf) hr hor h1 hs (hi & hio & hit) ].
  unfold remove_empty_tuple. rewrite ho. unfold single_linked_output. rewrite hf, ht.
  cbn [length]. rewrite (neighs_rest g output tag q (length rest) f order hf hr hor).
  set (g1 := add_node_after input x (XOutput rest) (remove_node tag (remove_node output g))).
  assert (hget : forall m, get_op m (g_nodes g1)
            = if Nat.eqb m x then Some (XOutput rest)
              else if Nat.eqb m tag then None else if Nat.eqb m output then None
              else get_op m (g_nodes g)).
  { intro m. unfold g1, add_node_after. cbn [g_nodes]. rewrite get_insert.
    - unfold remove_node. cbn [g_nodes]. rewrite !get_filter. reflexivity.
    - unfold remove_node. cbn [g_nodes]. rewrite !get_filter.
      apply Nat.eqb_neq in hio. apply Nat.eqb_neq in hit. rewrite hio, hit. exact hi.
    - unfold remove_node. cbn [g_nodes]. rewrite !get_filter, hx.
      destruct (Nat.eqb x tag); [ reflexivity | ]. destruct (Nat.eqb x output); reflexivity. }
  assert (hg1x : get_op x (g_nodes g1) = Some (XOutput rest)) by (rewrite hget, Nat.eqb_refl; reflexivity).
  rewrite (reconnect_ok _ x 0 g1 rest hg1x).
  2: { intros s hin. assert (hc : (exists p, p < length rest /\ s = f p) \/ In s order).
       { apply in_app_or in hin. destruct hin as [ hin | hin ]; [ left | right; exact hin ].
         apply in_map_iff in hin. destruct hin as (p & <- & hp). apply in_seq in hp.
         exists p. split; [ lia | reflexivity ]. }
       destruct (hs s hc) as (n1 & n2 & o & e). rewrite hget. apply Nat.eqb_neq in n1.
       apply Nat.eqb_neq in n2. rewrite n1, n2. destruct (Nat.eqb (fst s) x); eauto. }
  2: { rewrite app_length, map_length, seq_length. lia. }
  eexists. split; [ reflexivity | ]. cbn [g_nodes]. split; [ exact hg1x | ].
  assert (hnone : forall p, linked_outputs {| g_nodes := g_nodes g1; g_links := g_links g1 |} x p = []).
  { intro p. apply no_link. cbn [g_links]. intros l hl. unfold g1, add_node_after in hl. cbn [g_links] in hl.
    apply removed_links in hl. destruct hl as (hl & _). apply removed_links in hl.
    apply hxl. apply hl. }
  assert (hlk : forall p, linked_outputs
            {| g_nodes := g_nodes g1;
               g_links := g_links g1 ++ combine (map f (seq 0 (length rest)) ++ order)
                 (map (pair x) (seq 0 (length (map f (seq 0 (length rest)) ++ order)))) |} x p
            = match nth_error (map f (seq 0 (length rest)) ++ order) p with Some s => [s] | None => [] end).
  { intro p. rewrite linked_app, hnone, combine_linked. cbn [app Nat.ltb Nat.leb]. rewrite Nat.sub_0_r.
    reflexivity. }
  split; [ | split; [ | split ] ].
  - intros p hp. rewrite hlk. rewrite nth_error_app1 by (rewrite map_length, seq_length; exact hp).
    rewrite (map_nth_error f p (seq 0 (length rest)) (d := p)); [ reflexivity | ].
    rewrite nth_error_nth' with (d := 0) by (rewrite seq_length; exact hp).
    rewrite seq_nth by exact hp. reflexivity.
  - rewrite hlk. rewrite nth_error_app2 by (rewrite map_length, seq_length; lia).
    rewrite map_length, seq_length, Nat.sub_diag.
    destruct order as [ | a [ | b c ] ]; [ reflexivity | reflexivity | simpl in h1; lia ].
  - intros l hl. cbn [g_links]. rewrite in_app_iff. split.
    + intros [ h | h ].
      * unfold g1, add_node_after in h. cbn [g_links] in h. apply removed_links in h.
        destruct h as (h & a & b). apply removed_links in h. tauto.
      * exfalso. apply hl. destruct l as [ a b ]. apply in_combine_r in h. apply in_map_iff in h.
        destruct h as (i & <- & _). reflexivity.
    + intros (h & a & b & c & d). left. unfold g1, add_node_after. cbn [g_links].
      apply removed_links. rewrite removed_links. tauto.
  - intros n a b c. rewrite hget. apply Nat.eqb_neq in a, b, c. rewrite a, b, c. reflexivity.
Qed.

Lemma C105_same_pf : forall g input output x t tys,
  get_op output (g_nodes g) = Some (XOutput (t :: tys)) ->
  (remove_empty_tuple input output x g = Same
   <-> ~ (t = UnitSum /\ exists tag q, linked_outputs g output 0 = [(tag, q)]
            /\ get_op tag (g_nodes g) = Some XTag)).
Proof.
  intros g input output x t tys h. unfold remove_empty_tuple. rewrite h.
  destruct t as [ | n ].
  2: { split; [ intros _ (a & _); discriminate | reflexivity ]. }
  unfold single_linked_output.
  destruct (linked_outputs g output 0) as [ | (tag, q) [ | b l ] ] eqn:e.
  - split; [ intros _ (_ & u & v & a & _); discriminate | reflexivity ].
  - destruct (get_op tag (g_nodes g)) as [ o | ] eqn:k.
    + destruct o; try (split; [ intros _ (_ & u & v & a & b); inversion a; subst; congruence | reflexivity ]).
      split; [ | intro a; exfalso; apply a; split; [ reflexivity | exists tag, q; auto ] ].
      cbv zeta. destruct (reconnect _ _ _ _); discriminate.
    + split; [ intros _ (_ & u & v & a & b); inversion a; subst; congruence | reflexivity ].
  - split; [ intros _ (_ & u & v & a & _); discriminate | reflexivity ].
Qed.

Lemma C105_order_refuted_pf : forall g input output tag q rest f order x,
  get_op output (g_nodes g) = Some (XOutput (UnitSum :: rest)) ->
  get_op tag (g_nodes g) = Some XTag -> linked_outputs g output 0 = [(tag, q)] ->
  (forall p, p < length rest -> linked_outputs g output (S p) = [f p]) ->
  linked_outputs g output (S (length rest)) = order -> length order >= 2 ->
  (exists o, get_op input (g_nodes g) = Some o) -> input <> output -> input <> tag -> unused x g ->
  remove_empty_tuple input output x g = Panic.
Proof.
  intros g input output tag q rest f order x ho ht hf hr hor h2 hi hio hit (hx & _).
  unfold remove_empty_tuple. rewrite ho. unfold single_linked_output. rewrite hf, ht.
  cbn [length]. rewrite (neighs_rest g output tag q (length rest) f order hf hr hor).
  rewrite reconnect_panic with (tys := rest); [ reflexivity | | lia | ].
  - unfold add_node_after. cbn [g_nodes]. rewrite get_insert, Nat.eqb_refl; [ reflexivity | | ].
    + unfold remove_node. cbn [g_nodes]. rewrite !get_filter.
      apply Nat.eqb_neq in hio. apply Nat.eqb_neq in hit. rewrite hio, hit. exact hi.
    + unfold remove_node. cbn [g_nodes]. rewrite !get_filter, hx.
      destruct (Nat.eqb x tag); [ reflexivity | ]. destruct (Nat.eqb x output); reflexivity.
  - rewrite app_length, map_length, seq_length. lia.
Qed.

Lemma C105_shared_refuted_pf : forall g input output tag rest f order x q m i,
  tagged g input output tag rest f order -> unused x g ->
  linked_outputs g m i = [(tag, q)] -> m <> output -> m <> tag -> m <> x ->
  exists g', remove_empty_tuple input output x g = Changed g' rest /\ linked_outputs g' m i = []
    /\ get_op m (g_nodes g') = get_op m (g_nodes g).
Proof.
  intros g input output tag rest f order x q m i ht hu hl h1 h2 h3.
  destruct (C105_outputs_partial_pf _ _ _ _ _ _ _ _ ht hu) as (g' & e & _ & _ & _ & hlk & hn).
  exists g'. split; [ exact e | ]. split; [ | apply hn; assumption ].
  unfold linked_outputs. destruct (filter _ _) as [ | l r ] eqn:ef; [ reflexivity | ]. exfalso.
  assert (hi : In l (filter (fun l => eqp (snd l) (m, i)) (g_links g'))) by (rewrite ef; left; reflexivity).
  apply filter_In in hi. destruct hi as (hi & he). apply eqp_spec in he.
  assert (hlx : fst (snd l) <> x) by (rewrite he; exact h3).
  apply (hlk l hlx) in hi. destruct hi as (hi & _ & hnt & _).
  apply hnt. assert (hin : In (fst l) (linked_outputs g m i)).
  { unfold linked_outputs. apply (in_map fst). apply filter_In. split; [ exact hi | ]. apply eqp_spec. exact he. }
  rewrite hl in hin. destruct hin as [ ex | [] ]. destruct l as [ a b ]. simpl in ex |- *. subst a. reflexivity.
Qed.

Lemma C105_ports_refuted_pf : forall g input output tag rest f order x ins outs,
  tagged g input output tag rest f order -> unused x g -> length ins <> length rest ->
  exists i o ni no g', into_dfg ins outs input output x g = Some (i, o, (ni, no), g')
    /\ ni = length i + 1 /\ o = rest /\ no <> length o + 1.
Proof.
  intros g input output tag rest f order x ins outs ht hu hl.
  destruct (C105_outputs_partial_pf _ _ _ _ _ _ _ _ ht hu) as (g' & e & _).
  unfold into_dfg. rewrite e. exists ins, rest, (length ins + 1), (length ins + 1), g'.
  repeat split; lia.
Qed.

