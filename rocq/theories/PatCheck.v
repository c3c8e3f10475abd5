(** Executable checks of the hypotheses of the theorems about rewriting. *)
From Coq Require Import List Bool Arith Lia Permutation.
From Verif Require Import PatSpec PatModel PatProofs PatRewrite PatMatch.
Import ListNotations.

Section Check.
Variable Op : Type.
Variables ain aout : Op -> nat.
Variables lin lout : Op -> nat -> bool.
Notation circuit := (circuit Op).
Definition known_b (c : circuit) (a : list (nat * Op)) (w : source) : bool :=
  match w with Inp k => k <? c_inputs c | Out n j => existsb (fun x => Nat.eqb (fst x) n && (j <? aout (snd x))) a end.
Fixpoint ordered_b (c : circuit) (a l : list (nat * Op)) : bool :=
  match l with [] => true | x :: l => forallb (known_b c a) (ins ain c x) && ordered_b c (a ++ [x]) l end.
Fixpoint distinct (l : list nat) : bool := match l with [] => true | x :: l => negb (existsb (Nat.eqb x) l) && distinct l end.
Definition typed_b (c : circuit) (fi fo : list bool) : bool :=
  Nat.eqb (length fi) (c_inputs c) &&
  forallb (fun x => forallb (fun k => Bool.eqb (lin (snd x) k) (flag lout c fi (c_src c (fst x) k))) (seq 0 (ain (snd x)))) (c_nodes c) &&
  (if list_eq_dec Bool.bool_dec (map (flag lout c fi) (c_outs c)) fo then true else false) &&
  forallb (fun w => negb (flag lout c fi w) || (count_occ source_eq_dec (uses ain c (c_nodes c)) w <=? 1)) (uses ain c (c_nodes c)).
Definition valid_b (c : circuit) : bool := ordered_b c [] (c_nodes c) && distinct (map fst (c_nodes c)) && forallb (known_b c (c_nodes c)) (c_outs c).

Lemma known_ok c a w : known_b c a w = true -> known aout c a w.
Proof.
  destruct w as [k|n j]; cbn [known_b]; intros H.
  - left. exists k. split; auto. apply Nat.ltb_lt; auto.
  - right. apply existsb_exists in H. destruct H as (x & Hx & H). apply andb_prop in H. destruct H as [H1 H2]. apply Nat.eqb_eq in H1. apply Nat.ltb_lt in H2. exists x. split; auto. rewrite <- H1. apply in_map. apply in_seq. lia.
Qed.
Lemma ordered_ok c l : forall a0, ordered_b c a0 l = true -> forall a x b, l = a ++ x :: b -> forall w, In w (ins ain c x) -> known aout c (a0 ++ a) w.
Proof.
  induction l as [|y l IH]; intros a0 H a x b E w Hw; [destruct a; discriminate|]. cbn [ordered_b] in H. apply andb_prop in H. destruct H as [H1 H2]. destruct a as [|z a]; cbn [app] in E; injection E as -> E.
  - rewrite app_nil_r. apply known_ok. rewrite forallb_forall in H1. auto.
  - subst l. specialize (IH _ H2 a x b eq_refl w Hw). rewrite <- app_assoc in IH. exact IH.
Qed.
Lemma distinct_ok l : distinct l = true -> NoDup l.
Proof.
  induction l as [|x l IH]; cbn [distinct]; intros H; constructor; apply andb_prop in H; destruct H as [H1 H2]; auto. intros Hi. apply negb_true_iff in H1. rewrite <- not_true_iff_false in H1. apply H1. apply existsb_exists. exists x. split; auto. apply Nat.eqb_refl.
Qed.
Lemma typed_ok c fi fo : typed_b c fi fo = true -> linear_typed ain lin lout c fi fo.
Proof.
  unfold typed_b. intros H. apply andb_prop in H. destruct H as [H H4]. apply andb_prop in H. destruct H as [H H3]. apply andb_prop in H. destruct H as [H1 H2]. constructor.
  - apply Nat.eqb_eq. auto.
  - intros x k Hx Hk. rewrite forallb_forall in H2. specialize (H2 x Hx). rewrite forallb_forall in H2. apply eqb_prop. apply H2. apply in_seq. lia.
  - destruct (list_eq_dec _ _ _) in H3; [auto|discriminate].
  - intros w Hw. destruct (in_dec source_eq_dec w (uses ain c (c_nodes c))) as [Hi|Hi].
    + rewrite forallb_forall in H4. specialize (H4 w Hi). rewrite Hw in H4. cbn in H4. apply Nat.leb_le. auto.
    + apply (count_occ_not_In source_eq_dec) in Hi. rewrite Hi. lia.
Qed.
Lemma valid_ok c fi fo : valid_b c = true -> linear_typed ain lin lout c fi fo -> schedule ain aout lin c (c_nodes c).
Proof.
  unfold valid_b. intros H T. apply andb_prop in H. destruct H as [H H3]. apply andb_prop in H. destruct H as [H1 H2]. constructor.
  - apply Permutation_refl.
  - apply distinct_ok. auto.
  - intros a x b E w Hw. apply (ordered_ok c (c_nodes c) [] H1 a x b E w Hw).
  - intros w Hw. apply known_ok. rewrite forallb_forall in H3. auto.
  - eapply typed_once; [exact T|apply Permutation_refl].
Qed.

(** SiblingSubgraph::try_new, called in matcher.rs:143-158: what depends on the image, no input of the image among it, and no value used
    outside that is not an output. (External code, modelled by what it checks.) *)
Definition from_set (c : circuit) (s : list nat) (x : nat * Op) : bool :=
  existsb (fun k => match c_src c (fst x) k with Out n _ => existsb (Nat.eqb n) s | Inp _ => false end) (seq 0 (ain (snd x))).
Fixpoint grow (fuel : nat) (c : circuit) (s : list nat) : list nat :=
  match fuel with 0 => s | S fuel => grow fuel c (s ++ filter (fun n => negb (existsb (Nat.eqb n) s)) (map fst (filter (from_set c s) (c_nodes c)))) end.
Definition convex_b (p c : circuit) (f : nat -> nat) (i : nat -> source) : bool :=
  let s := grow (length (c_nodes c)) c (map (fun x => f (fst x)) (c_nodes p)) in
  forallb (fun x => existsb (Nat.eqb (f (fst x))) s) (c_nodes p) &&
  forallb (fun x => negb (from_set c s x) || existsb (Nat.eqb (fst x)) s) (c_nodes c) &&
  forallb (fun k => match i k with Out n _ => negb (existsb (Nat.eqb n) s) | Inp _ => true end) (seq 0 (c_inputs p)).
Definition allowed (p : circuit) (f : nat -> nat) (w : source) : bool :=
  match w with
  | Inp _ => true
  | Out n j => forallb (fun x => negb (Nat.eqb (f (fst x)) n) || existsb (fun v => if source_eq_dec v (Out (fst x) j) then true else false) (c_outs p)) (c_nodes p)
  end.
Definition closed_b (p c : circuit) (f : nat -> nat) : bool :=
  forallb (fun x => in_image p f (fst x) || forallb (allowed p f) (ins ain c x)) (c_nodes c) && forallb (allowed p f) (c_outs c).
Definition subgraph_ok (p c : circuit) (f : nat -> nat) (i : nat -> source) : bool := convex_b p c f i && closed_b p c f.

Lemma mem_ok n s : existsb (Nat.eqb n) s = true <-> In n s.
Proof. rewrite existsb_exists. split; [intros (x & Hx & E); apply Nat.eqb_eq in E; congruence|intros H; exists n; split; auto; apply Nat.eqb_refl]. Qed.
Lemma convex_ok p c f i : convex_b p c f i = true -> convex ain p c f i.
Proof.
  unfold convex_b. generalize (grow (length (c_nodes c)) c (map (fun x => f (fst x)) (c_nodes p))). intros s H. apply andb_prop in H. destruct H as [H H3]. apply andb_prop in H. destruct H as [H1 H2]. rewrite forallb_forall in H1, H2, H3.
  assert (A : forall n, after ain p c f n -> In n s).
  { intros n A. induction A as [n (x & Hx & ->)|x k n j Hx Hk E A IH].
    - apply mem_ok. apply H1. auto.
    - specialize (H2 x Hx). apply orb_prop in H2. destruct H2 as [H2|H2]; [|apply mem_ok; auto]. exfalso. apply negb_true_iff in H2. rewrite <- not_true_iff_false in H2. apply H2. apply existsb_exists. exists k. split; [apply in_seq; lia|]. rewrite E. apply mem_ok. auto. }
  intros k n j Hk E Af. specialize (H3 k). rewrite E in H3. assert (Q : negb (existsb (Nat.eqb n) s) = true) by (apply H3; apply in_seq; lia). apply negb_true_iff in Q. rewrite <- not_true_iff_false in Q. apply Q. apply mem_ok. auto.
Qed.
Lemma allowed_ok p f n j : allowed p f (Out (f n) j) = true -> In n (map fst (c_nodes p)) -> In (Out n j) (c_outs p).
Proof.
  cbn [allowed]. intros H Hn. apply in_map_iff in Hn. destruct Hn as (x & <- & Hx). rewrite forallb_forall in H. specialize (H x Hx). rewrite Nat.eqb_refl in H. cbn in H. apply existsb_exists in H. destruct H as (v & Hv & E). destruct (source_eq_dec v (Out (fst x) j)); [congruence|discriminate].
Qed.
Lemma closed_ok p c f : closed_b p c f = true -> closed ain p c f.
Proof.
  unfold closed_b. intros H. apply andb_prop in H. destruct H as [H1 H2]. rewrite forallb_forall in H1, H2. split.
  - intros x k n j Hx Ni Hk E Hn. specialize (H1 x Hx). apply orb_prop in H1. destruct H1 as [H1|H1].
    + exfalso. apply Ni. unfold in_image in H1. apply existsb_exists in H1. destruct H1 as (y & Hy & E'). apply Nat.eqb_eq in E'. exists y. auto.
    + rewrite forallb_forall in H1. apply (allowed_ok p f); auto. rewrite <- E. apply H1. apply in_map. apply in_seq. lia.
  - intros n j Ho Hn. apply (allowed_ok p f); auto.
Qed.

(** ** Equivalence *)
Variable I : interp Op ain aout lin lout.
Lemma diag_map n : map (fun k => (Inp k, Inp k)) (seq 0 n) = map (fun w => (w, w)) (map Inp (seq 0 n)).
Proof. rewrite map_map. reflexivity. Qed.
Lemma diag_fst n : map (fst (B := source)) (map (fun k => (Inp k, Inp k)) (seq 0 n)) = map Inp (seq 0 n).
Proof. rewrite map_map. reflexivity. Qed.
Lemma diag_snd n : map (snd (A := source)) (map (fun k => (Inp k, Inp k)) (seq 0 n)) = map Inp (seq 0 n).
Proof. rewrite map_map. reflexivity. Qed.
(** One circuit from corresponding states. *)
Lemma self_like c l m s t : schedule ain aout lin c l -> schedule ain aout lin c m -> like I (map (fun k => (Inp k, Inp k)) (seq 0 (c_inputs c))) s t ->
  like I (combine (c_outs c) (c_outs c)) (run I (map (action_of ain aout c) l) s) (run I (map (action_of ain aout c) m) t).
Proof.
  intros Hl Hm L. assert (O := like_ok _ _ _ _ _ I _ _ _ L). rewrite diag_fst, diag_snd in O. destruct O as [Os Ot].
  destruct (sim Op ain aout lin lout I c c (fun w => w) l (map (fun k => (Inp k, Inp k)) (seq 0 (c_inputs c))) s t (fun w => In w (c_outs c))) as (C' & L' & N' & _); auto.
  - apply (v_ids Hl).
  - intros x Hx. split; apply (node_wellformed Op ain aout lin c l); auto; apply (v_linear Hl).
  - intros x _. rewrite map_id. reflexivity.
  - intros a x b E w Hw. destruct (v_order Hl a x b E w Hw) as [(k & -> & Hk)|K]; [left; apply in_map_iff; exists k; split; auto; apply in_seq; lia|right; auto].
  - intros x w Hx Hw. rewrite diag_fst, diag_snd. apply (out_id _ aout) in Hw. destruct Hw as (j & ->). split; intros H; apply in_map_iff in H; destruct H as (? & ? & _); discriminate.
  - intros a x b E w Hw. assert (Hx : In x l) by (rewrite E; apply in_or_app; right; now left). destruct (linear_use Op ain lin c l x w (v_ids Hl) (v_linear Hl) Hx Hw) as [U1 U2]. split; auto.
    intros y Hy. apply U1; [rewrite E; apply in_or_app; right; now right|]. intros ->. assert (N := v_ids Hl). rewrite E, map_app in N. cbn [map] in N. apply NoDup_remove_2 in N. apply N. apply in_or_app. right. apply in_map. auto.
  - intros w Hw. destruct (v_outs Hl w Hw) as [(k & -> & Hk)|K]; [left; apply in_map_iff; exists k; split; auto; apply in_seq; lia|right; auto].
  - eapply like_same; [eapply like_sub; [exact L'|]|apply same_refl|].
    + intros [u v] H. assert (u = v /\ In u (c_outs c)) as [<- Hu]; [|auto]. clear - H. induction (c_outs c) as [|w ws IH]; [destruct H|]. cbn in H. destruct H as [[= <- <-]|H]; [split; auto; now left|]. destruct (IH H). split; auto. now right.
    + apply (schedules_same Op ain aout lin lout I); auto.
Qed.
Lemma equivalent_trans c d e fi m : schedule ain aout lin d m -> equivalent I fi c d -> equivalent I fi d e -> equivalent I fi c e.
Proof.
  intros Hd (A1 & A2 & A3) (B1 & B2 & B3). split; [congruence|]. split; [congruence|]. intros l n s t Hl Hn L Ti.
  assert (O := like_ok _ _ _ _ _ I _ _ _ L). rewrite diag_fst, diag_snd in O. destruct O as [Os Ot].
  apply (like_trans _ _ _ _ _ I) with (M := c_outs d) (t := run I (map (action_of ain aout d) m) t); auto.
  apply B3; auto.
  - rewrite diag_map. rewrite <- A1. apply like_refl. auto.
  - intros k Hk. rewrite <- A1 in Hk. rewrite <- (Ti k Hk). symmetry. eapply kind_like; [exact L|]. apply in_map_iff. exists k. split; auto. apply in_seq. lia.
Qed.
End Check.
Arguments valid_b {Op}. Arguments typed_b {Op}. Arguments subgraph_ok {Op}.

(** ** Rewriting with a set of rules *)
(** A rule: a circuit that becomes a pattern, and its replacement. *)
Section Rules.
Variables ain aout : optype -> nat.
Variables lin lout : optype -> nat -> bool.
Variable typed : optype -> nat -> bool.
Notation circuit := (circuit optype).
(** CircuitPattern::try_from_circuit, find_matches, to_rewrite, apply (pattern.rs:33-100, matcher.rs:143-158 and 209-215,
    rewrite.rs:75-84) for one rule and one match: the circuit [c] becomes [d]. [order]: the order in which the matcher follows
    the edges of the pattern; [off]: numbers from [off] on are unused. *)
Definition rewrites_to (pc r c d : circuit) : Prop :=
  exists commands p order root m off,
    try_from_circuit ain lin typed pc commands = inl p /\ Permutation commands (c_nodes pc) /\ (forall q, In q (p_inputs p) -> q <> []) /\
    covers (p_edges p) order /\ get_match_map ain p order c root = Some m /\ subgraph_ok ain pc c (node_map m) (boundary_input c p m) = true /\
    (forall x, In x (c_nodes c) -> fst x < off) /\ d = rewrite_match c pc r p m off.
(** Any number of rewrites. *)
Inductive rewritten (rules : circuit -> circuit -> Prop) (c : circuit) : circuit -> Prop :=
  | rewritten_start : rewritten rules c c
  | rewritten_step pc r d e : rewritten rules c d -> rules pc r -> rewrites_to pc r d e -> rewritten rules c e.
End Rules.
