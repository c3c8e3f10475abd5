(** Proofs about regions that are turned into dataflow graphs. *)
From Coq Require Import List Bool Arith Lia.
From Verif Require Import XdfgModel XdfgSpec.
Import ListNotations.

Lemma eqp_spec : forall p q, eqp p q = true <-> p = q.
Proof.
  intros [a b] [c d]. unfold eqp. simpl. rewrite andb_true_iff, !Nat.eqb_eq. split.
  - intros (-> & ->). reflexivity.
  - intro h. inversion h. auto.
Qed.

Lemma get_filter : forall m n l,
  get_op m (filter (fun x => negb (Nat.eqb (fst x) n)) l) = if Nat.eqb m n then None else get_op m l.
Proof.
  intros m n. induction l as [ | [ k o ] l IH ]; cbn [filter get_op fst].
  - destruct (Nat.eqb m n); reflexivity.
  - destruct (Nat.eqb_spec k n) as [ -> | h ]; cbn [negb].
    + rewrite IH. destruct (Nat.eqb m n); reflexivity.
    + cbn [get_op]. rewrite IH. destruct (Nat.eqb_spec m k) as [ -> | h' ]; auto.
      apply Nat.eqb_neq in h. rewrite h. reflexivity.
Qed.

Lemma get_insert : forall n x o l, (exists a, get_op n l = Some a) -> get_op x l = None ->
  forall m, get_op m (insert_after n x o l) = if Nat.eqb m x then Some o else get_op m l.
Proof.
  intros n x o. induction l as [ | [ k a ] l IH ]; intros (b & hb) hx m; cbn [get_op] in *.
  - discriminate.
  - cbn [insert_after fst]. destruct (Nat.eqb_spec x k) as [ | hk ]; [ discriminate | ].
    rewrite Nat.eqb_sym in hb. destruct (Nat.eqb_spec k n) as [ -> | hn ]; cbn [get_op].
    + destruct (Nat.eqb_spec m n) as [ -> | h1 ]; [ | reflexivity ].
      destruct (Nat.eqb_spec n x); [ congruence | reflexivity ].
    + rewrite IH by eauto. destruct (Nat.eqb_spec m k) as [ -> | h1 ]; [ | reflexivity ].
      destruct (Nat.eqb_spec k x); [ congruence | reflexivity ].
Qed.

Lemma reconnect_ok : forall ss n i g tys, get_op n (g_nodes g) = Some (XOutput tys) ->
  (forall s, In s ss -> exists o, get_op (fst s) (g_nodes g) = Some o) ->
  i + length ss <= S (length tys) ->
  reconnect ss n i g
  = Some {| g_nodes := g_nodes g;
            g_links := g_links g ++ combine ss (map (pair n) (seq i (length ss))) |}.
Proof.
  induction ss as [ | s ss IH ]; intros n i g tys hn hs hl; cbn [reconnect].
  - cbn [combine]. rewrite app_nil_r. destruct g. reflexivity.
  - simpl in hl. unfold connect. destruct (hs s (or_introl eq_refl)) as (o & ho). rewrite ho, hn.
    destruct (Nat.leb_spec i (length tys)); [ | lia ].
    rewrite (IH n (S i) _ tys); cbn [g_nodes g_links]; [ | exact hn | | lia ].
    + rewrite <- app_assoc. reflexivity.
    + intros q hq. apply hs. right. exact hq.
Qed.

(** More sources than ports: a panic. *)
Lemma reconnect_panic : forall ss n i g tys, get_op n (g_nodes g) = Some (XOutput tys) ->
  i <= S (length tys) -> i + length ss > S (length tys) -> reconnect ss n i g = None.
Proof.
  induction ss as [ | s ss IH ]; intros n i g tys hn hi hl; cbn [reconnect].
  - simpl in hl. lia.
  - simpl in hl. unfold connect. rewrite hn. destruct (get_op (fst s) (g_nodes g)); [ | reflexivity ].
    destruct (Nat.leb_spec i (length tys)); [ | reflexivity ].
    apply (IH n (S i) _ tys); cbn [g_nodes]; [ exact hn | lia | lia ].
Qed.

Lemma combine_linked : forall (x p : nat) (ss : list port) i,
  map fst (filter (fun l => eqp (snd l) (x, p)) (combine ss (map (pair x) (seq i (length ss)))))
  = if Nat.ltb p i then [] else match nth_error ss (p - i) with Some s => [s] | None => [] end.
Proof.
  intros x p. induction ss as [ | s ss IH ]; intro i; cbn [length seq map combine filter].
  - destruct (Nat.ltb p i); [ reflexivity | ]. destruct (p - i); reflexivity.
  - cbn [snd]. destruct (eqp (x, i) (x, p)) eqn:e.
    + apply eqp_spec in e. inversion e; subst. cbn [map fst]. rewrite IH.
      rewrite Nat.ltb_irrefl, Nat.sub_diag. cbn [nth_error].
      assert (h : p <? S p = true) by (apply Nat.ltb_lt; lia). rewrite h. reflexivity.
    + rewrite IH. assert (hne : p <> i).
      { intros ->. assert (eqp (x, i) (x, i) = true) by (apply eqp_spec; reflexivity). congruence. }
      destruct (Nat.ltb_spec p i); destruct (Nat.ltb_spec p (S i)); try lia; auto.
      replace (p - i) with (S (p - S i)) by lia. reflexivity.
Qed.

Lemma flat_rest : forall g output f k s,
  (forall p, s <= p < s + k -> linked_outputs g output (S p) = [f p]) ->
  flat_map (linked_outputs g output) (seq (S s) k) = map f (seq s k).
Proof.
  intros g output f. induction k as [ | k IH ]; intros s h; cbn [seq flat_map map]; [ reflexivity | ].
  rewrite h by lia. cbn [app]. f_equal. apply IH. intros p hp. apply h. lia.
Qed.

Lemma neighs_rest : forall g output tag q k f order,
  linked_outputs g output 0 = [(tag, q)] ->
  (forall p, p < k -> linked_outputs g output (S p) = [f p]) ->
  linked_outputs g output (S k) = order ->
  skipn 1 (all_linked_outputs g output (S k)) = map f (seq 0 k) ++ order.
Proof.
  intros g output tag q k f order h0 h1 h2. unfold all_linked_outputs.
  change (seq 0 (S (S k))) with (0 :: seq 1 (S k)). cbn [flat_map]. rewrite h0. cbn [app skipn].
  rewrite seq_S, flat_map_app. cbn [flat_map]. rewrite app_nil_r.
  replace (1 + k) with (S k) by lia. rewrite h2. f_equal. apply flat_rest. intros p hp. apply h1. lia.
Qed.

Lemma removed_links : forall n g l, In l (g_links (remove_node n g)) <->
  In l (g_links g) /\ fst (fst l) <> n /\ fst (snd l) <> n.
Proof.
  intros n g l. unfold remove_node. cbn [g_links]. rewrite filter_In, andb_true_iff, !negb_true_iff,
    !Nat.eqb_neq. tauto.
Qed.

Lemma no_link : forall g x p, (forall l, In l (g_links g) -> fst (snd l) <> x) ->
  linked_outputs g x p = [].
Proof.
  intros g x p h. unfold linked_outputs.
  destruct (filter _ _) as [ | l r ] eqn:e; [ reflexivity | ]. exfalso.
  assert (hi : In l (filter (fun l => eqp (snd l) (x, p)) (g_links g))) by (rewrite e; left; reflexivity).
  apply filter_In in hi. destruct hi as (hi & he). apply eqp_spec in he. apply (h l hi).
  rewrite he. reflexivity.
Qed.

Lemma linked_app : forall ns l1 l2 x p,
  linked_outputs {| g_nodes := ns; g_links := l1 ++ l2 |} x p
  = linked_outputs {| g_nodes := ns; g_links := l1 |} x p
    ++ map fst (filter (fun l => eqp (snd l) (x, p)) l2).
Proof.
  intros. unfold linked_outputs. cbn [g_links]. rewrite filter_app, map_app. reflexivity.
Qed.
