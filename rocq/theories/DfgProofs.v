(** The correspondence of ports and the edges of a modified region. *)
From Coq Require Import List Arith Bool Lia Permutation.
From Verif Require Import OpsModel ResolveModel ResolveSpec ResolveWire ResolvePorts ResolveProofs ResolveMain DfgModel DfgSpec.
Import ListNotations.
Local Notation S := Datatypes.S.

(** ** Equality tests and insertion *)

Lemma node_eqb_spec : forall a b, node_eqb a b = true <-> a = b.
Proof.
  intros [| |k] [| |l]; simpl; split; intro H; try discriminate; auto.
  - apply Nat.eqb_eq in H. subst. auto.
  - injection H as ->. apply Nat.eqb_refl.
Qed.

Lemma port_eqb_iff : forall a b, port_eqb a b = true <-> a = b.
Proof.
  intros [d i] [d' j]. unfold port_eqb. simpl. destruct d, d'; split; intro H; try discriminate.
  - apply Nat.eqb_eq in H. subst. auto.
  - injection H as ->. apply Nat.eqb_refl.
  - apply Nat.eqb_eq in H. subst. auto.
  - injection H as ->. apply Nat.eqb_refl.
Qed.

Lemma wire_eqb_spec : forall a b, wire_eqb a b = true <-> a = b.
Proof.
  intros [x p] [y q]. unfold wire_eqb. simpl. rewrite andb_true_iff, node_eqb_spec, port_eqb_iff.
  split; [intros [-> ->]; auto|intro H; injection H; auto].
Qed.

Lemma insert_ok : forall e m, ~ In (fst e) (map fst m) -> insert e m = Some (m ++ [e]).
Proof.
  intros e m H. unfold insert. destruct (existsb _ m) eqn:Q; auto.
  apply existsb_exists in Q. destruct Q as (e' & I & Q). apply wire_eqb_spec in Q.
  exfalso. apply H. rewrite <- Q. apply in_map. auto.
Qed.

Lemma insert_all_ok : forall l m, NoDup (map fst l) ->
  (forall w, In w (map fst l) -> ~ In w (map fst m)) -> insert_all l m = Some (m ++ l).
Proof.
  induction l as [|e l IH]; intros m N D; simpl; [rewrite app_nil_r; auto|].
  inversion N; subst. rewrite insert_ok by (apply D; left; auto).
  rewrite IH; auto.
  - rewrite <- app_assoc. auto.
  - intros w I. rewrite map_app, in_app_iff. intros [J|[J|[]]].
    + apply (D w); [right; auto|auto].
    + subst. auto.
Qed.

Lemma map_get_in : forall M w w', NoDup (map fst M) -> (map_get w M = Some w' <-> In (w, w') M).
Proof.
  intros M w w' N. unfold map_get. destruct (find _ M) as [e|] eqn:F.
  - destruct (find_some _ _ F) as [I Q]. apply wire_eqb_spec in Q. split.
    + intro H. injection H as <-. rewrite <- Q. destruct e; auto.
    + intro J. f_equal. clear F. induction M as [|a M IH]; [destruct I|].
      simpl in N. apply NoDup_cons_iff in N. destruct N as [H1 H2]. destruct I as [->|I], J as [J|J]; auto.
      * rewrite J. auto.
      * exfalso. apply H1. apply (in_map fst) in J. simpl in J. rewrite Q. auto.
      * subst a. exfalso. apply H1. simpl. apply (in_map fst) in I. rewrite <- Q. auto.
  - split; [discriminate|]. intro J. apply (find_none _ _ F) in J.
    rewrite (proj2 (wire_eqb_spec _ _)) in J by auto. discriminate.
Qed.

(** ** The visits *)

Definition new_op (d : bool) (n : nat) (o : op) : op :=
  match o with Gate g _ _ => Gate g d n | Copied l i u => Copied l i u end.
Definition is_gate (o : op) : bool := match o with Gate _ _ _ => true | _ => false end.

(** Entries of one node. *)
Definition op_entries (d : bool) (n k : nat) (o : op) : list (wire * wire) :=
  match o with
  | Gate g _ _ => gate_entries d n k (gop_qubits g) (gop_angles g)
  | Copied l ins outs =>
      match wire_node_inout (fun b => b) d ins outs 0 0 0 with
      | Some e => entries (Nd k) (Nd k) e
      | None => []
      end
  end.

(** The chain of the controls through a list of nodes. *)
Fixpoint links (n : nat) (a : node) (l : list nat) : list ((node * nat) * (node * nat)) :=
  match l with
  | [] => map (fun i => ((a, i), (Outp, i))) (seq 0 n)
  | b :: l => map (fun i => ((a, i), (Nd b, i))) (seq 0 n) ++ links n (Nd b) l
  end.

Definition op_at (nodes : list (nat * op)) (k : nat) : op :=
  match find_node nodes k with Some o => o | None => Copied 0 [] [] end.
Definition gates_of (nodes : list (nat * op)) (l : list nat) : list nat :=
  filter (fun k => is_gate (op_at nodes k)) l.

Lemma find_node_in : forall nodes k o, NoDup (map fst nodes) -> (find_node nodes k = Some o <-> In (k, o) nodes).
Proof.
  intros nodes k o N. unfold find_node. destruct (find _ nodes) as [e|] eqn:F.
  - destruct (find_some _ _ F) as [I Q]. apply Nat.eqb_eq in Q. split.
    + intro H. injection H as <-. rewrite <- Q. destruct e; auto.
    + intro J. f_equal. clear F. induction nodes as [|a M IH]; [destruct I|].
      simpl in N. apply NoDup_cons_iff in N. destruct N as [H1 H2]. destruct I as [->|I], J as [J|J]; auto.
      * rewrite J. auto.
      * exfalso. apply H1. apply (in_map fst) in J. simpl in J. rewrite Q. auto.
      * subst a. exfalso. apply H1. simpl. apply (in_map fst) in I. rewrite <- Q. auto.
  - split; [discriminate|]. intro J. apply (find_none _ _ F) in J.
    simpl in J. rewrite Nat.eqb_refl in J. discriminate.
Qed.

Lemma op_at_in : forall nodes k o, NoDup (map fst nodes) -> In (k, o) nodes -> op_at nodes k = o.
Proof. intros. unfold op_at. rewrite (proj2 (find_node_in nodes k o H)); auto. Qed.

(** Keys of the entries of a node. *)
Lemma at_nodes_node : forall k p, at_nodes (Nd k) (Nd k) p = (Nd k, p).
Proof. intros k [[] i]; auto. Qed.

Lemma op_entries_node : forall d n k o e, In e (op_entries d n k o) -> fst (fst e) = Nd k /\ fst (snd e) = Nd k.
Proof.
  intros d n k [g d' n'|l ins outs] e I; simpl in I.
  - unfold gate_entries in I. apply in_app_or in I.
    destruct I as [I|I]; apply in_map_iff in I; destruct I as (i & <- & _); auto.
  - destruct (wire_node_inout _ _ _ _ _ _ _) as [m|]; [|destruct I].
    apply in_map_iff in I. destruct I as ([p q] & <- & _). simpl.
    rewrite !at_nodes_node. auto.
Qed.

Lemma NoDup_map_in : forall (A B : Type) (f : A -> B) l,
  (forall x y, In x l -> In y l -> f x = f y -> x = y) -> NoDup l -> NoDup (map f l).
Proof.
  induction l as [|a l IH]; intros H N; simpl; constructor; inversion N; subst.
  - intro I. apply in_map_iff in I. destruct I as (x & E & I).
    apply H2. rewrite <- (H x a); simpl; auto.
  - apply IH; auto. intros. apply H; simpl; auto.
Qed.

Lemma NoDup_app_iff' : forall (A : Type) (l m : list A),
  NoDup (l ++ m) <-> NoDup l /\ NoDup m /\ forall x, In x l -> ~ In x m.
Proof.
  induction l as [|a l IH]; intros m; simpl.
  - split; [intro H; repeat split; auto; constructor|tauto].
  - rewrite !NoDup_cons_iff, IH, in_app_iff. split.
    + intros (H & N & M & D). repeat split; auto. intros x [->|I] J; [apply H; auto|apply (D x); auto].
    + intros ((H & N) & M & D). repeat split; auto. intros [I|I]; auto. apply (D a); auto.
Qed.

Lemma gate_entries_keys : forall d n k q a, NoDup (map fst (gate_entries d n k q a)).
Proof.
  intros. unfold gate_entries. rewrite map_app, !map_map. simpl. apply NoDup_app_iff'. repeat split.
  - apply NoDup_map_in; [|apply seq_NoDup]. intros x y _ _ H. injection H. auto.
  - apply NoDup_map_in; [|apply seq_NoDup]. intros x y _ _ H. injection H. auto.
  - intros x I J. apply in_map_iff in I. apply in_map_iff in J.
    destruct I as (i & <- & _), J as (j & J & _). discriminate.
Qed.

Lemma entries_keys : forall x y m, NoDup (map fst m) -> NoDup (map fst (entries x y m)).
Proof.
  intros x y m N. unfold entries. rewrite map_map. simpl.
  rewrite <- (map_map fst (at_nodes x y)).
  apply NoDup_map_in; auto. intros [[] i] [[] j] _ _ H; simpl in H; injection H; congruence.
Qed.

Lemma entries_images : forall x y m, NoDup (map snd m) -> NoDup (map snd (entries x y m)).
Proof.
  intros x y m N. unfold entries. rewrite map_map. simpl.
  rewrite <- (map_map snd (at_nodes x y)).
  apply NoDup_map_in; auto. intros [[] i] [[] j] _ _ H; simpl in H; injection H; congruence.
Qed.

Lemma op_entries_keys : forall d n k o, NoDup (map fst (op_entries d n k o)).
Proof.
  intros d n k [g d' n'|l ins outs]; simpl; [apply gate_entries_keys|].
  destruct (wire_node_inout _ _ _ _ _ _ _) as [m|] eqn:W; [|constructor].
  apply entries_keys.
  destruct (C29_bijection_pf _ (fun b => b) d ins outs 0 0 0) as (m' & W' & _ & _ & N & _).
  unfold wire_node_inout in W. rewrite W in W'. injection W' as <-. auto.
Qed.

Section Region.
Variables (d : bool) (n : nat).

Lemma plug_links : forall k l a, plug k (map (fun i => (a, i)) (seq 0 l)) = map (fun i => ((a, i), (Nd k, i))) (seq 0 l).
Proof.
  intros k l a. unfold plug. rewrite map_length, seq_length.
  generalize 0 as s. induction l as [|l IH]; intro s; simpl; auto. f_equal. apply IH.
Qed.
Lemma out_links : forall l a, 
  map (fun e : nat * (node * nat) => (snd e, (Outp, fst e))) (combine (seq 0 l) (map (fun i => (a, i)) (seq 0 l)))
  = map (fun i => ((a, i), (Outp, i))) (seq 0 l).
Proof.
  intros l a. generalize 0 as s. induction l as [|l IH]; intro s; simpl; auto. f_equal. apply IH.
Qed.

Definition flat_op (o : op) : Prop :=
  match o with
  | Gate g d n => d = false /\ n = 0 /\ match g with Tk t => is_quantum t = true | Ph => True end
  | Copied _ ins outs => (forall b, In b (ins ++ outs) -> b = false)
  end.

Lemma visit_ok : forall s k o, flat_op o ->
  (forall w, In w (map fst (s_map s)) -> fst w <> Nd k) ->
  visit d n s k o = Some {| s_map := s_map s ++ op_entries d n k o;
    s_controls := if is_gate o then replug k (s_controls s) else s_controls s;
    s_nodes := s_nodes s ++ [(k, new_op d n o)];
    s_edges := s_edges s ++ if is_gate o then plug k (s_controls s) else [] |}.
Proof.
  intros s k o F D.
  assert (K : insert_all (op_entries d n k o) (s_map s) = Some (s_map s ++ op_entries d n k o)).
  { apply insert_all_ok; [apply op_entries_keys|]. intros w I J.
    apply in_map_iff in I. destruct I as (e & <- & I). apply (D _ J).
    apply (op_entries_node d n k o); auto. }
  destruct o as [g d' n'|l ins outs].
  - destruct F as (-> & -> & F). simpl in K |- *.
    assert (Mo : modifiable g = true) by (destruct g; auto). rewrite Mo, K. auto.
  - simpl in K |- *.
    destruct (C29_bijection_pf _ (fun b => b) d ins outs 0 0 0) as (m' & W' & _).
    unfold wire_node_inout in *. rewrite W' in *. rewrite K, app_nil_r. auto.
Qed.

Variable nodes : list (nat * op).
Hypothesis Nn : NoDup (map fst nodes).
Hypothesis Fl : forall k o, In (k, o) nodes -> flat_op o.

Lemma visit_all_ok : forall wl s a,
  NoDup wl -> (forall k, In k wl -> In k (map fst nodes)) ->
  (forall k w, In k wl -> In w (map fst (s_map s)) -> fst w <> Nd k) ->
  s_controls s = map (fun i => (a, i)) (seq 0 n) ->
  exists s', visit_all d n nodes wl s = Some s' /\
    s_map s' = s_map s ++ flat_map (fun k => op_entries d n k (op_at nodes k)) wl /\
    s_nodes s' = s_nodes s ++ map (fun k => (k, new_op d n (op_at nodes k))) wl /\
    length (s_controls s') = n /\
    s_edges s' ++ map (fun e => (snd e, (Outp, fst e))) (combine (seq 0 n) (s_controls s'))
      = s_edges s ++ links n a (gates_of nodes wl).
Proof.
  induction wl as [|k wl IH]; intros s a N I D C.
  - exists s. simpl. rewrite !app_nil_r. rewrite C, map_length, seq_length. repeat split; auto.
    f_equal. apply out_links.
  - inversion N; subst.
    assert (Ik : exists o, In (k, o) nodes).
    { assert (J : In k (map fst nodes)) by (apply I; left; auto).
      apply in_map_iff in J. destruct J as ([k' o] & E & J). simpl in E. subst. eauto. }
    destruct Ik as (o & Ik).
    simpl. rewrite (proj2 (find_node_in nodes k o Nn) Ik).
    pose proof (op_at_in nodes k o Nn Ik) as Eo. rewrite Eo.
    rewrite (visit_ok s k o (Fl k o Ik)) by (intros w J; apply D; simpl; auto).
    set (s1 := Build_state _ _ _ _).
    destruct (IH s1 (if is_gate o then Nd k else a)) as (s' & V & Em & En & Lc & Ee); auto.
    + intros k' J. apply I. right; auto.
    + intros k' w J Jw. unfold s1 in Jw. simpl in Jw. rewrite map_app, in_app_iff in Jw.
      destruct Jw as [Jw|Jw]; [apply D; simpl; auto|].
      apply in_map_iff in Jw. destruct Jw as (e & <- & Jw).
      rewrite (proj1 (op_entries_node d n k o e Jw)). intro Q. injection Q as ->. auto.
    + unfold s1. simpl. destruct (is_gate o); auto. rewrite C. unfold replug.
      rewrite map_length, seq_length. auto.
    + exists s'. split; auto. unfold s1 in Em, En, Ee. simpl in Em, En, Ee.
      repeat split; auto.
      * rewrite Em, <- app_assoc. auto.
      * rewrite En, <- app_assoc. auto.
      * rewrite Ee. rewrite <- app_assoc. f_equal. idtac.
        destruct (is_gate o); simpl; auto. rewrite C, plug_links. auto.
Qed.
End Region.
