(** Lemmas for MovProps: how each step changes the sources of an input port. *)
From Coq Require Import List Arith Bool Lia.
From Verif Require Import MovModel MovSpec.
Import ListNotations.

Lemma same_iff : forall p q, same p q = true <-> p = q.
Proof.
  intros [a b] [c d]. unfold same. simpl. rewrite andb_true_iff, !Nat.eqb_eq. split; [intros [-> ->]; reflexivity|intros E; inversion E; auto].
Qed.
Lemma same_refl : forall p, same p p = true.
Proof. intros. now apply same_iff. Qed.
Lemma same_false : forall p q, p <> q -> same p q = false.
Proof. intros p q N. destruct (same p q) eqn:E; [apply same_iff in E; contradiction|reflexivity]. Qed.

Lemma filter_none : forall {A} (f : A -> bool) l, (forall x, In x l -> f x = true) -> filter f l = l.
Proof. intros A f l. induction l as [|a l IH]; intros K; simpl; [reflexivity|]. rewrite K by (left; reflexivity). rewrite IH; [reflexivity|]. intros; apply K; now right. Qed.
Lemma filter_filter : forall {A} (f g : A -> bool) l, filter f (filter g l) = filter (fun x => g x && f x) l.
Proof. intros A f g l. induction l as [|a l IH]; simpl; [reflexivity|]. destruct (g a); simpl; [destruct (f a); now rewrite IH|exact IH]. Qed.
Lemma map_filter : forall {A B} (f : A -> B) (g : B -> bool) l, filter g (map f l) = map f (filter (fun x => g (f x)) l).
Proof. intros A B f g l. induction l as [|a l IH]; simpl; [reflexivity|]. destruct (g (f a)); simpl; now rewrite IH. Qed.
Lemma filter_same : forall {A} (f g : A -> bool) l, (forall x, In x l -> f x = g x) -> filter f l = filter g l.
Proof. intros A f g l. induction l as [|a l IH]; intros K; simpl; [reflexivity|]. rewrite K by (left; reflexivity). rewrite IH; [reflexivity|]. intros; apply K; now right. Qed.

(** Sources. *)
Lemma in_sources : forall h s t, In s (linked_outputs h t) <-> In (s, t) (links h).
Proof.
  intros h s t. unfold linked_outputs. rewrite in_map_iff. split.
  - intros ((s', t') & E & I). apply filter_In in I. destruct I as [I K]. simpl in *. apply same_iff in K. now subst.
  - intros I. exists (s, t). split; [reflexivity|]. apply filter_In. split; [exact I|apply same_refl].
Qed.
Lemma in_targets : forall h s t, In t (linked_inputs h s) <-> In (s, t) (links h).
Proof.
  intros h s t. unfold linked_inputs. rewrite in_map_iff. split.
  - intros ((s', t') & E & I). apply filter_In in I. destruct I as [I K]. simpl in *. apply same_iff in K. now subst.
  - intros I. exists (s, t). split; [reflexivity|]. apply filter_In. split; [exact I|apply same_refl].
Qed.

Lemma filter_nil : forall {A} (f : A -> bool) l, (forall x, In x l -> f x = false) -> filter f l = [].
Proof. intros A f l. induction l as [|a l IH]; intros K; simpl; [reflexivity|]. rewrite K by (left; reflexivity). apply IH. intros; apply K; now right. Qed.

Lemma only_iff : forall h s t, only_source h s t <-> linked_outputs h t = [s].
Proof.
  intros h s t. unfold only_source, linked_outputs. split.
  - intros (x & y & -> & N). rewrite filter_app. simpl. rewrite same_refl.
    rewrite (filter_nil _ x), (filter_nil _ y); [reflexivity| |];
      intros [a b] I; simpl; apply same_false; intros ->; apply (N a); apply in_or_app; auto.
  - induction (links h) as [|[a b] l IH]; [discriminate|]. cbn [filter snd]. destruct (same b t) eqn:E.
    + apply same_iff in E. subst b. cbn [map fst]. intros K. injection K as -> K. exists [], l. split; [reflexivity|]. intros s' I. simpl in I.
      assert (F : filter (fun e : port * port => same (snd e) t) l = []) by (destruct (filter (fun e : port * port => same (snd e) t) l); [reflexivity|discriminate]).
      assert (I' : In (s', t) (filter (fun e : port * port => same (snd e) t) l)) by (apply filter_In; split; [exact I|apply same_refl]).
      rewrite F in I'. destruct I'.
    + intros K. destruct (IH K) as (x & y & -> & N). exists ((a, b) :: x), y. split; [reflexivity|]. intros s' [E'|I']; [|apply (N s' I')].
      injection E' as -> ->. rewrite same_refl in E. discriminate.
Qed.
Lemma none_iff : forall h t, no_source h t <-> linked_outputs h t = [].
Proof.
  intros h t. unfold no_source. split.
  - intros N. destruct (linked_outputs h t) as [|s l] eqn:E; [reflexivity|]. exfalso. apply (N s). apply in_sources. rewrite E. now left.
  - intros E s I. apply in_sources in I. rewrite E in I. destruct I.
Qed.

Lemma sources_connect : forall h s t' t, linked_outputs (connect h s t') t = linked_outputs h t ++ (if same t' t then [s] else []).
Proof. intros. unfold linked_outputs, connect. simpl. rewrite filter_app, map_app. simpl. destruct (same t' t); reflexivity. Qed.
Lemma sources_disconnect : forall h s t, linked_outputs (disconnect_output h s) t = filter (fun x => negb (same x s)) (linked_outputs h t).
Proof.
  intros. unfold linked_outputs, disconnect_output. simpl. rewrite filter_filter, map_filter, filter_filter. f_equal. apply filter_same. intros x _. apply andb_comm.
Qed.
Lemma sources_disconnect_input : forall h t' t, t' <> t -> linked_outputs (disconnect_input h t') t = linked_outputs h t.
Proof.
  intros h t' t N. unfold linked_outputs, disconnect_input. simpl. rewrite filter_filter. f_equal. apply filter_same. intros [a b] _. simpl.
  destruct (same b t) eqn:E; [|now rewrite andb_false_r]. apply same_iff in E. subst. rewrite same_false by auto. reflexivity.
Qed.

Section Run.
Variables (ins outs : nat -> nat) (kin kout : port -> kind) (rg : regions).

(** Setting parents. *)
Lemma move_links : forall r ns h, links (fold_left (set_parent r) ns h) = links h.
Proof. intros r ns. induction ns as [|n ns IH]; intros h; simpl; [reflexivity|]. now rewrite IH. Qed.
Lemma move_parent : forall r ns h n, parent (fold_left (set_parent r) ns h) n = if existsb (Nat.eqb n) ns then Some r else parent h n.
Proof.
  intros r ns. induction ns as [|m ns IH]; intros h n; simpl; [reflexivity|]. rewrite IH. destruct (existsb (Nat.eqb n) ns) eqn:E; simpl; [now rewrite orb_true_r|].
  rewrite orb_false_r. reflexivity.
Qed.

(** Rewiring inputs. *)
Lemma rewire_input_parent : forall found h t, parent (rewire_input kin rg found h t) = parent h.
Proof.
  intros. unfold rewire_input. destruct (kin t); try reflexivity. destruct (linked_outputs h t) as [|s [|]]; try reflexivity.
  destruct (fst s =? old_in rg); reflexivity.
Qed.
Lemma rewire_inputs_parent : forall found l h, parent (fold_left (rewire_input kin rg found) l h) = parent h.
Proof. intros found l. induction l as [|t l IH]; intros h; simpl; [reflexivity|]. rewrite IH. apply rewire_input_parent. Qed.

Definition added (found : port -> port) (l : list port) (t : port) : list port :=
  match kin t with
  | Uns => match l with [s] => if Nat.eqb (fst s) (old_in rg) then [(new_in rg, snd s)] else [] | _ => [] end
  | _ => [found t]
  end.

Lemma rewire_input_self : forall found h t,
  linked_outputs (rewire_input kin rg found h t) t = linked_outputs h t ++ added found (linked_outputs h t) t.
Proof.
  intros. unfold rewire_input, added. destruct (kin t).
  - rewrite sources_connect, same_refl. reflexivity.
  - rewrite sources_connect, same_refl. reflexivity.
  - destruct (linked_outputs h t) as [|s [|s' l]] eqn:E; [now rewrite E| |rewrite E; now rewrite app_nil_r].
    destruct (fst s =? old_in rg); [rewrite sources_connect, same_refl, E; reflexivity|rewrite E; reflexivity].
Qed.
Lemma rewire_input_other : forall found h t' t, t' <> t -> linked_outputs (rewire_input kin rg found h t') t = linked_outputs h t.
Proof.
  intros found h t' t N. unfold rewire_input. destruct (kin t'); try (rewrite sources_connect, same_false by exact N; apply app_nil_r).
  destruct (linked_outputs h t') as [|s [|]]; try reflexivity. destruct (fst s =? old_in rg); [|reflexivity].
  rewrite sources_connect, same_false by exact N; apply app_nil_r.
Qed.
Lemma rewire_inputs_other : forall found l h t, ~ In t l -> linked_outputs (fold_left (rewire_input kin rg found) l h) t = linked_outputs h t.
Proof.
  intros found l. induction l as [|t' l IH]; intros h t N; simpl; [reflexivity|]. rewrite IH by (intros I; apply N; now right).
  apply rewire_input_other. intros ->. apply N. now left.
Qed.
Lemma rewire_inputs_self : forall found l h t, NoDup l -> In t l ->
  linked_outputs (fold_left (rewire_input kin rg found) l h) t = linked_outputs h t ++ added found (linked_outputs h t) t.
Proof.
  intros found l. induction l as [|t' l IH]; intros h t N I; [destruct I|]. inversion N as [|? ? N1 N2]; subst. simpl. destruct I as [->|I].
  - rewrite rewire_inputs_other by exact N1. apply rewire_input_self.
  - rewrite IH by assumption. rewrite rewire_input_other; [reflexivity|]. intros ->. contradiction.
Qed.

(** Rewiring outputs. *)
Lemma ends_parent : forall s l h, parent (fold_left (fun h t => if Nat.eqb (fst t) (old_out rg)
    then connect (disconnect_input h (old_out rg, snd t)) s (new_out rg, snd t) else h) l h) = parent h.
Proof. intros s l. induction l as [|t l IH]; intros h; simpl; [reflexivity|]. rewrite IH. destruct (fst t =? old_out rg); reflexivity. Qed.
Lemma ends_sources : forall s l h t, fst t <> old_out rg -> fst t <> new_out rg ->
  linked_outputs (fold_left (fun h t => if Nat.eqb (fst t) (old_out rg)
    then connect (disconnect_input h (old_out rg, snd t)) s (new_out rg, snd t) else h) l h) t = linked_outputs h t.
Proof.
  intros s l. induction l as [|t' l IH]; intros h t N1 N2; simpl; [reflexivity|]. rewrite IH by assumption. destruct (fst t' =? old_out rg); [|reflexivity].
  rewrite sources_connect, same_false, app_nil_r by (intros <-; auto). apply sources_disconnect_input. intros <-. auto.
Qed.
Lemma rewire_output_parent : forall h s, parent (rewire_output kout rg h s) = parent h.
Proof. intros. unfold rewire_output. destruct (kout s); [reflexivity| |]; apply ends_parent. Qed.
Lemma rewire_outputs_parent : forall l h, parent (fold_left (rewire_output kout rg) l h) = parent h.
Proof. intros l. induction l as [|t l IH]; intros h; simpl; [reflexivity|]. rewrite IH. apply rewire_output_parent. Qed.

(** The sources that lose their links. *)
Definition cuts (l : list port) (x : port) : bool := existsb (fun s => same x s && match kout s with Reg => true | _ => false end) l.
Lemma rewire_outputs_sources : forall l h t, fst t <> old_out rg -> fst t <> new_out rg ->
  linked_outputs (fold_left (rewire_output kout rg) l h) t = filter (fun x => negb (cuts l x)) (linked_outputs h t).
Proof.
  intros l. induction l as [|s l IH]; intros h t N1 N2; simpl; [symmetry; apply filter_none; reflexivity|]. rewrite IH by assumption. unfold rewire_output.
  destruct (kout s) eqn:K.
  - rewrite sources_disconnect, filter_filter. apply filter_same. intros x _. rewrite andb_true_r, negb_orb. reflexivity.
  - rewrite ends_sources by assumption. apply filter_same. intros x _. now rewrite andb_false_r.
  - rewrite ends_sources by assumption. apply filter_same. intros x _. now rewrite andb_false_r.
Qed.

Lemma insert_parent : forall h sg found n,
  parent (insert_external kin kout rg h sg found) n = if existsb (Nat.eqb n) (sg_nodes sg) then Some (r_new rg) else parent h n.
Proof. intros. unfold insert_external. rewrite rewire_outputs_parent, rewire_inputs_parent. apply move_parent. Qed.
Lemma insert_other : forall h sg found t, fst t <> old_out rg -> fst t <> new_out rg -> ~ In t (sg_in sg) ->
  linked_outputs (insert_external kin kout rg h sg found) t = filter (fun x => negb (cuts (sg_out sg) x)) (linked_outputs h t).
Proof.
  intros. unfold insert_external. rewrite rewire_outputs_sources by assumption. rewrite rewire_inputs_other by assumption.
  unfold linked_outputs. now rewrite move_links.
Qed.
Lemma insert_self : forall h sg found t, fst t <> old_out rg -> fst t <> new_out rg -> NoDup (sg_in sg) -> In t (sg_in sg) ->
  linked_outputs (insert_external kin kout rg h sg found) t =
    filter (fun x => negb (cuts (sg_out sg) x)) (linked_outputs h t ++ added found (linked_outputs h t) t).
Proof.
  intros. unfold insert_external. rewrite rewire_outputs_sources by assumption. rewrite rewire_inputs_self by assumption.
  unfold linked_outputs. now rewrite move_links.
Qed.

(** Many steps. *)
Definition step_cuts (st : step) (x : port) : bool := match st with Sub sg _ => cuts (sg_out sg) x | New _ => false end.
Definition not_into (t : port) (st : step) : Prop :=
  match st with Sub sg _ => ~ In t (sg_in sg) | New es => forall s, ~ In (s, t) es end.

Lemma run_parent : forall steps h n,
  parent (fold_left (do_step kin kout rg) steps h) n = if existsb (Nat.eqb n) (moved steps) then Some (r_new rg) else parent h n.
Proof.
  intros steps. induction steps as [|st steps IH]; intros h n; [reflexivity|]. simpl fold_left. rewrite IH. unfold moved. destruct st as [sg found|es]; simpl.
  - rewrite existsb_app. fold (moved steps). rewrite insert_parent. destruct (existsb (Nat.eqb n) (sg_nodes sg)); simpl; [destruct (existsb _ _); reflexivity|reflexivity].
  - reflexivity.
Qed.
Lemma run_other : forall steps h t, fst t <> old_out rg -> fst t <> new_out rg -> (forall st, In st steps -> not_into t st) ->
  linked_outputs (fold_left (do_step kin kout rg) steps h) t = filter (fun x => negb (existsb (fun st => step_cuts st x) steps)) (linked_outputs h t).
Proof.
  intros steps. induction steps as [|st steps IH]; intros h t N1 N2 K; simpl; [symmetry; apply filter_none; reflexivity|].
  rewrite IH; [|assumption|assumption|intros; apply K; now right]. pose proof (K st (or_introl eq_refl)) as K1. destruct st as [sg found|es]; simpl in *.
  - rewrite insert_other by assumption. rewrite filter_filter. apply filter_same. intros x _. now rewrite negb_orb.
  - unfold linked_outputs at 1. simpl. rewrite filter_app, map_app. rewrite (filter_nil _ es).
    + now rewrite app_nil_r.
    + intros [a b] I. simpl. apply same_false. intros ->. apply (K1 a I).
Qed.

(** The links of the old input node. *)
Lemma nonlocal_parent_aux : forall (f : link -> bool) l h, parent (fold_left (fun h' (e : link) => if f e then connect h' (new_in rg, snd (fst e)) (snd e) else h') l h) = parent h.
Proof. intros f l. induction l as [|e l IH]; intros h; simpl; [reflexivity|]. rewrite IH. destruct (f e); reflexivity. Qed.
Lemma nonlocal_aux : forall (f : link -> bool) l h t,
  linked_outputs (fold_left (fun h' (e : link) => if f e then connect h' (new_in rg, snd (fst e)) (snd e) else h') l h) t =
  linked_outputs h t ++ map (fun e : link => (new_in rg, snd (fst e))) (filter (fun e => same (snd e) t && f e) l).
Proof.
  intros f l. induction l as [|e l IH]; intros h t; simpl; [now rewrite app_nil_r|]. rewrite IH. destruct (f e).
  - rewrite sources_connect, <- app_assoc. destruct (same (snd e) t); reflexivity.
  - rewrite andb_false_r. reflexivity.
Qed.

Definition stays (h : hugr) (t : port) (s : port) : bool :=
  Nat.eqb (fst s) (old_in rg)
    && negb (has_parent h (fst t) (r_old rg) || (Nat.ltb (snd s) (outs (old_in rg)) && has_parent h (fst t) (r_new rg))).
Lemma nonlocal_eq : forall h, move_nonlocal outs rg h =
  fold_left (fun h' (e : link) => if stays h (snd e) (fst e) then connect h' (new_in rg, snd (fst e)) (snd e) else h') (links h) h.
Proof.
  intros h. unfold move_nonlocal. assert (G : forall l h', fold_left (fun h'0 (e : link) => let '((n, i), t) := e in
      if Nat.eqb n (old_in rg) && negb (has_parent h (fst t) (r_old rg) || (Nat.ltb i (outs (old_in rg)) && has_parent h (fst t) (r_new rg)))
      then connect h'0 (new_in rg, i) t else h'0) l h' =
      fold_left (fun h' (e : link) => if stays h (snd e) (fst e) then connect h' (new_in rg, snd (fst e)) (snd e) else h') l h').
  { intros l. induction l as [|[[n i] t] l IH]; intros h'; simpl; [reflexivity|]. rewrite IH. reflexivity. }
  apply G.
Qed.
Lemma nonlocal_parent : forall h, parent (move_nonlocal outs rg h) = parent h.
Proof. intros. rewrite nonlocal_eq. apply (nonlocal_parent_aux (fun e => stays h (snd e) (fst e))). Qed.
Lemma nonlocal_sources : forall h t, linked_outputs (move_nonlocal outs rg h) t =
  linked_outputs h t ++ map (fun s => (new_in rg, snd s)) (filter (stays h t) (linked_outputs h t)).
Proof.
  intros h t. rewrite nonlocal_eq, (nonlocal_aux (fun e => stays h (snd e) (fst e))). f_equal. unfold linked_outputs. rewrite map_filter, map_map, filter_filter. f_equal.
  apply filter_same. intros [a b] _. simpl. destruct (same b t) eqn:E; [apply same_iff in E; now subst|reflexivity].
Qed.

Lemma beneath_ext : forall depth h h' r n, parent h = parent h' -> beneath depth h r n = beneath depth h' r n.
Proof. intros depth. induction depth as [|depth IH]; intros h h' r n E; simpl; [reflexivity|]. rewrite E. destruct (parent h' n); [|reflexivity]. now rewrite (IH h h' r n0 E). Qed.

Lemma replace_sources : forall depth h t, beneath depth h (r_old rg) (fst t) = false ->
  linked_outputs (replace_region depth rg h) t = filter (fun s => negb (beneath depth h (r_old rg) (fst s))) (linked_outputs h t).
Proof.
  intros depth h t K. unfold linked_outputs, replace_region. simpl. rewrite filter_filter, map_filter, filter_filter. f_equal. apply filter_same. intros [a b] _. simpl.
  destruct (same b t) eqn:E; [|now rewrite andb_false_r]. apply same_iff in E. subst b. rewrite K. simpl. now rewrite !andb_true_r.
Qed.

Lemma reassemble_sources : forall depth steps h t, let h' := fold_left (do_step kin kout rg) steps h in
  beneath depth h' (r_old rg) (fst t) = false ->
  linked_outputs (reassemble outs kin kout depth rg steps h) t =
  filter (fun s => negb (beneath depth h' (r_old rg) (fst s)))
    (linked_outputs h' t ++ map (fun s => (new_in rg, snd s)) (filter (stays h' t) (linked_outputs h' t))).
Proof.
  intros depth steps h t h' K. unfold reassemble. fold h'. rewrite replace_sources by (rewrite (beneath_ext _ _ h'); [exact K|apply nonlocal_parent]).
  rewrite nonlocal_sources. apply filter_same. intros x _. now rewrite (beneath_ext _ _ h' _ _ (nonlocal_parent h')).
Qed.
End Run.
