(** Lemmas on grouping commands into chunks. *)
From Coq Require Import List Bool Arith ZArith Lia.
From Verif Require Import CostModel ChunksSpec ChunksModel.
Import ListNotations.
Open Scope Z_scope.

Notation zsum := (fold_right Z.add 0).
Lemma zsum_app : forall a b, zsum (a ++ b) = zsum a + zsum b.
Proof. induction a as [|x a IH]; intro b; simpl; [reflexivity|]. rewrite IH. lia. Qed.
Lemma zsum_nonneg : forall l, Forall (Z.le 0) l -> 0 <= zsum l.
Proof. induction 1; simpl; lia. Qed.

(** The code's keys on single integers without wrapping. *)
Fixpoint zkeys (max run : Z) (g : nat) (cs : list Z) : list nat :=
  match cs with
  | [] => []
  | c :: rest => if max <? run + c then S g :: zkeys max 0 (S g) rest else g :: zkeys max (run + c) g rest
  end.

Lemma wrapu_small : forall x, 0 <= x < m63 -> wrapu x = x.
Proof. intros. unfold wrapu, m63, m64 in *. apply Z.mod_small. lia. Qed.
Lemma wrapi_small : forall x, - m63 <= x < m63 -> wrapi x = x.
Proof. intros. unfold wrapi, m63, m64 in *. rewrite Z.mod_small by lia. lia. Qed.

Lemma keys_zkeys : forall N max0 max' costs run0 run' g, (0 < N)%nat -> 0 <= max0 < m63 ->
  Forall (fun c => exists c0 c', c = c0 :: c' /\ 0 <= c0) costs -> 0 <= run0 -> run0 + zsum (map as_isize costs) < m63 ->
  keys N (max0 :: max') (run0 :: run') g costs = zkeys max0 run0 g (map as_isize costs).
Proof.
  intros N max0 max'. induction costs as [|c costs IH]; intros run0 run' g HN Hm Hc Hr Hs; [reflexivity|].
  inversion Hc as [|? ? (c0 & c' & -> & H0) Hc']; subst. simpl in Hs.
  assert (Hn : 0 <= zsum (map as_isize costs)).
  { apply zsum_nonneg. clear -Hc'. induction Hc' as [|? ? (x & y & -> & H) H1 IH]; simpl; constructor; assumption. }
  cbn [keys map]. change (as_isize (c0 :: c')) with c0. cbn [zkeys].
  change (cost_add (run0 :: run') (c0 :: c')) with (wrapu (run0 + c0) :: cost_add run' c').
  change (as_isize (sub_cost (wrapu (run0 + c0) :: cost_add run' c') (max0 :: max'))) with (wrapi (wrapi (wrapu (run0 + c0)) - wrapi max0)).
  rewrite wrapu_small, !wrapi_small by (unfold m63 in *; try rewrite wrapi_small by (unfold m63; lia); try rewrite wrapi_small by (unfold m63; lia); lia).
  replace (0 <? run0 + c0 - max0) with (max0 <? run0 + c0) by (destruct (Z.ltb_spec max0 (run0 + c0)), (Z.ltb_spec 0 (run0 + c0 - max0)); lia).
  destruct (max0 <? run0 + c0); f_equal.
  - destruct N as [|N]; [lia|]. change (cost_default (S N)) with (0 :: cost_default N). apply IH; try assumption; lia.
  - apply IH; try assumption; lia.
Qed.

(** The groups directly: the rest of the current group and the later groups. *)
Section Groups.
Variable A : Type.
Variable cost : A -> Z.
Variable max : Z.
Fixpoint zgroups (run : Z) (l : list A) : list A * list (list A) :=
  match l with
  | [] => ([], [])
  | x :: l =>
      if max <? run + cost x then let (cur, gs) := zgroups 0 l in ([], (x :: cur) :: gs)
      else let (cur, gs) := zgroups (run + cost x) l in (x :: cur, gs)
  end.
Definition first_group (p : list A * list (list A)) : list (list A) := match fst p with [] => snd p | _ => fst p :: snd p end.

Lemma chunk_by_nonnil : forall (l : list (nat * A)), l <> [] -> chunk_by l <> [].
Proof.
  intros [|[k x] l] H; [congruence|]. simpl. destruct (hd_error (map fst l)), (chunk_by l); try discriminate. destruct (Nat.eqb k n); discriminate.
Qed.
Lemma zkeys_hd : forall l run g, match hd_error (zkeys max run g (map cost l)) with
  | None => l = [] | Some k => (k = S g /\ fst (zgroups run l) = [] /\ l <> []) \/ (k = g /\ fst (zgroups run l) <> [] /\ l <> []) end.
Proof.
  intros [|x l] run g; simpl; [reflexivity|]. destruct (max <? run + cost x); simpl.
  - left. destruct (zgroups 0 l). split; [reflexivity|]. split; [reflexivity|discriminate].
  - right. destruct (zgroups (run + cost x) l). split; [reflexivity|]. split; discriminate.
Qed.
Lemma zkeys_length : forall cs run g, length (zkeys max run g cs) = length cs.
Proof. induction cs as [|c cs IH]; intros; simpl; [reflexivity|]. destruct (max <? run + c); simpl; rewrite IH; reflexivity. Qed.
Lemma map_fst_combine : forall (B C : Type) (a : list B) (b : list C), length a = length b -> map fst (combine a b) = a.
Proof. induction a as [|x a IH]; intros [|y b] H; simpl in *; try discriminate; [reflexivity|]. rewrite IH by congruence. reflexivity. Qed.

Lemma zgroups_ok : forall l run g, chunk_by (combine (zkeys max run g (map cost l)) l) = first_group (zgroups run l).
Proof.
  induction l as [|x l IH]; intros run g; [reflexivity|]. cbn [map zkeys zgroups].
  assert (Hd : forall r h, hd_error (map fst (combine (zkeys max r h (map cost l)) l)) = hd_error (zkeys max r h (map cost l))).
  { intros. rewrite map_fst_combine; [reflexivity|]. rewrite zkeys_length, map_length. reflexivity. }
  destruct (max <? run + cost x); cbn [combine chunk_by].
  - rewrite Hd, IH. pose proof (zkeys_hd l 0 (S g)) as H. destruct (hd_error (zkeys max 0 (S g) (map cost l))) as [k|].
    + destruct (zgroups 0 l) as [cur gs] eqn:E. unfold first_group in *. cbn [fst snd] in *. destruct H as [(-> & -> & Hl)|(-> & H & Hl)].
      * destruct gs as [|g0 gs]; [reflexivity|]. destruct (Nat.eqb_spec (S g) (S (S g))); [lia|reflexivity].
      * destruct cur; [congruence|]. rewrite Nat.eqb_refl. reflexivity.
    + subst l. reflexivity.
  - rewrite Hd, IH. pose proof (zkeys_hd l (run + cost x) g) as H. destruct (hd_error (zkeys max (run + cost x) g (map cost l))) as [k|].
    + destruct (zgroups (run + cost x) l) as [cur gs] eqn:E. unfold first_group in *. cbn [fst snd] in *. destruct H as [(-> & -> & Hl)|(-> & H & Hl)].
      * destruct gs as [|g0 gs]; [reflexivity|]. destruct (Nat.eqb_spec g (S g)); [lia|reflexivity].
      * destruct cur; [congruence|]. rewrite Nat.eqb_refl. reflexivity.
    + subst l. reflexivity.
Qed.

Definition total (g : list A) : Z := zsum (map cost g).
(** A later group: without its first element it fits, with the next it does not. *)
Definition tight (g : list A) (rest : list (list A)) : Prop :=
  exists x t, g = x :: t /\ total t <= max /\ forall y u r, rest = (y :: u) :: r -> max < total t + cost y.
Fixpoint all_tight (gs : list (list A)) : Prop := match gs with [] => True | g :: rest => tight g rest /\ all_tight rest end.

Lemma zgroups_tight : forall l run, 0 <= max -> (forall x, In x l -> 0 <= cost x) -> run <= max ->
  let p := zgroups run l in
  fst p ++ concat (snd p) = l /\ all_tight (snd p) /\ run + total (fst p) <= max /\
  forall y u r, snd p = (y :: u) :: r -> max < run + total (fst p) + cost y.
Proof.
  induction l as [|x l IH]; intros run Hm Hc Hr; cbv zeta; simpl.
  - unfold total. simpl. split; [reflexivity|]. split; [exact I|]. split; [lia|discriminate].
  - destruct (Z.ltb_spec max (run + cost x)) as [H|H].
    + destruct (IH 0 Hm (fun y Hy => Hc y (or_intror Hy)) Hm) as (E & T & B & N). destruct (zgroups 0 l) as [cur gs]. simpl in *.
      split; [rewrite E; reflexivity|]. split.
      { split; [|assumption]. exists x, cur. split; [reflexivity|]. split; [lia|]. intros y u r Er. specialize (N y u r Er). lia. }
      unfold total. simpl. split; [lia|]. intros y u r Er. injection Er as <- _ _. lia.
    + destruct (IH (run + cost x) Hm (fun y Hy => Hc y (or_intror Hy)) ltac:(lia)) as (E & T & B & N).
      destruct (zgroups (run + cost x) l) as [cur gs]. simpl in *. unfold total in *. simpl.
      split; [rewrite E; reflexivity|]. split; [assumption|]. split; [lia|]. intros y u r Er. specialize (N y u r Er). lia.
Qed.
Lemma all_tight_app : forall a g b, all_tight (a ++ g :: b) -> tight g b.
Proof. induction a as [|x a IH]; intros g b H; simpl in H; [tauto|]. apply IH. tauto. Qed.
End Groups.

Lemma split_zgroups : forall (A : Type) N max0 max' (op_cost : A -> list Z) commands, (0 < N)%nat -> 0 <= max0 < m63 ->
  (forall x, In x commands -> exists c0 c', op_cost x = c0 :: c' /\ 0 <= c0) ->
  zsum (map (fun x => as_isize (op_cost x)) commands) < m63 ->
  split_groups N (max0 :: max') op_cost commands = first_group A (zgroups A (fun x => as_isize (op_cost x)) max0 0 commands).
Proof.
  intros A N max0 max' op_cost commands HN Hm Hc Hs. unfold split_groups. destruct N as [|N]; [lia|].
  change (cost_default (S N)) with (0 :: cost_default N). rewrite keys_zkeys; try assumption; try lia.
  - rewrite map_map. apply zgroups_ok.
  - apply Forall_forall. intros c Hin. apply in_map_iff in Hin. destruct Hin as (x & <- & Hx). apply Hc. assumption.
  - rewrite map_map. assumption.
Qed.

(** Any costs: the groups are a partition in order. *)
Lemma chunk_by_concat : forall (A : Type) (l : list (nat * A)), concat (chunk_by l) = map snd l /\ Forall (fun g => g <> []) (chunk_by l).
Proof.
  intros A. induction l as [|[k x] l [IH1 IH2]]; simpl; [auto|].
  destruct (hd_error (map fst l)) as [k'|] eqn:E.
  - destruct (chunk_by l) as [|g gs] eqn:Eg.
    + destruct l as [|p l]; [discriminate|]. exfalso. apply (chunk_by_nonnil A (p :: l)); [discriminate|assumption].
    + inversion IH2; subst. destruct (Nat.eqb k k'); simpl in *; rewrite <- IH1; (split; [reflexivity|]); repeat constructor; try assumption; discriminate.
  - destruct l; [|discriminate]. simpl. split; [reflexivity|]. repeat constructor. discriminate.
Qed.
Lemma keys_length : forall N max costs run g, length (keys N max run g costs) = length costs.
Proof. induction costs as [|c costs IH]; intros; simpl; [reflexivity|]. destruct (0 <? _); simpl; rewrite IH; reflexivity. Qed.
Lemma map_snd_combine : forall (B C : Type) (a : list B) (b : list C), length a = length b -> map snd (combine a b) = b.
Proof. induction a as [|x a IH]; intros [|y b] H; simpl in *; try discriminate; [reflexivity|]. rewrite IH by congruence. reflexivity. Qed.
Lemma split_partition : forall (A : Type) N max (op_cost : A -> list Z) commands,
  concat (split_groups N max op_cost commands) = commands /\ Forall (fun g => g <> []) (split_groups N max op_cost commands).
Proof.
  intros. unfold split_groups. destruct (chunk_by_concat A (combine (keys N max (cost_default N) 0 (map op_cost commands)) commands)) as [H1 H2].
  split; [|assumption]. rewrite H1. apply map_snd_combine. rewrite keys_length, map_length. reflexivity.
Qed.
Lemma split_sizes : forall (A : Type) N max (op_cost : A -> list Z) commands,
  list_sum (map (@length A) (split_groups N max op_cost commands)) = length commands.
Proof.
  intros. destruct (split_partition A N max op_cost commands) as [H _]. rewrite <- H at 2. generalize (split_groups N max op_cost commands). induction l as [|g l IH]; simpl; [reflexivity|]. rewrite app_length, IH. reflexivity.
Qed.

(** Bounds beyond the isize range. *)
Lemma huge_keys : forall max_size, m63 + 3 <= max_size < m64 -> forall (A : Type) (l : list A) g,
  keys 1 [Z.max 0 (max_size - 1)] [0] g (map (fun _ => [1]) l) = seq (S g) (length l).
Proof.
  intros max_size Hm A. induction l as [|x l IH]; intro g; [reflexivity|]. cbn [map keys length seq].
  replace (0 <? as_isize (sub_cost (cost_add [0] [1]) [Z.max 0 (max_size - 1)])) with true.
  { f_equal. apply IH. }
  symmetry. apply Z.ltb_lt. cbn [cost_add sub_cost zip_with as_isize]. unfold wrapi, wrapu, m63, m64 in *.
  rewrite (Z.mod_small (0 + 1)) by lia. rewrite (Z.mod_small (0 + 1 + 2 ^ 63)) by lia.
  replace (Z.max 0 (max_size - 1) + 2 ^ 63) with (max_size - 1 - 2 ^ 63 + 1 * 2 ^ 64) by lia.
  rewrite Z.mod_add by lia. rewrite (Z.mod_small (max_size - 1 - 2 ^ 63)) by lia. rewrite Z.mod_small by lia. lia.
Qed.
Lemma chunk_by_seq : forall (A : Type) (l : list A) g, chunk_by (combine (seq g (length l)) l) = map (fun x => [x]) l.
Proof.
  intro A. induction l as [|x l IH]; intro g; [reflexivity|]. cbn [length seq combine chunk_by map]. rewrite IH. destruct l as [|y l]; [reflexivity|].
  cbn [length seq combine map fst hd_error]. destruct (Nat.eqb_spec g (S g)); [lia|reflexivity].
Qed.
