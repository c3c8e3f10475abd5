(** Running a region and solving its equations are the same. *)
From Coq Require Import List Bool Arith Lia.
From Verif Require Import BorrowSpec BorrowModel BorrowGraph.
Import ListNotations.

Section Sol.
Variables (O X : Type) (sem : O -> list (val X) -> option (list (val X))).
Notation graph := (graph O).
Notation node := (node O).
Notation env := (wire -> option (val X)).

Definition holds (e : env) (n : node) : Prop :=
  exists vs outs, read e (ins n) = Some vs /\ eval_node sem (knd n) vs = Some outs /\ forall p, e (nid n, p) = nth_error outs p.
Definition sol (g : graph) (e : env) : Prop :=
  (forall n, In n g -> holds e n) /\ (forall w, ~ In (fst w) (map nid g) -> e w = None).

Lemma read_ext : forall (e e' : env) ws, (forall w, In w ws -> e w = e' w) -> read e ws = read e' ws.
Proof.
  intros e e' ws. induction ws as [|w ws IH]; intro H; [reflexivity|]. simpl. rewrite (H w (or_introl eq_refl)). rewrite IH; [reflexivity|]. intros x Hx. apply H. right. assumption.
Qed.
Lemma read_map : forall (f : wire -> wire) (e : env) ws, read e (map f ws) = read (fun w => e (f w)) ws.
Proof. intros f e ws. induction ws as [|w ws IH]; [reflexivity|]. simpl. rewrite IH. reflexivity. Qed.
Lemma ids_app_notin : forall (l1 l2 : graph) n, NoDup (map nid (l1 ++ n :: l2)) -> ~ In (nid n) (map nid l1) /\ ~ In (nid n) (map nid l2).
Proof. intros l1 l2 n N. rewrite map_app in N. simpl in N. apply NoDup_remove_2 in N. split; intro K; apply N; apply in_or_app; auto. Qed.

Lemma sol_run : forall (g : graph) e, topological g -> sol g e -> exists e2, run_region sem g = Some e2 /\ forall w, e2 w = e w.
Proof.
  intros g e [N Tp] [S0 S1].
  assert (G : forall l2 l1 e1, g = l1 ++ l2 -> (forall w, In (fst w) (map nid l1) -> e1 w = e w) -> (forall w, ~ In (fst w) (map nid l1) -> e1 w = None) ->
     exists e2, eval sem l2 e1 = Some e2 /\ forall w, e2 w = e w).
  { induction l2 as [|n l2 IH]; intros l1 e1 Eg A B.
    - rewrite app_nil_r in Eg. subst l1. exists e1. split; [reflexivity|]. intro w. destruct (in_dec Nat.eq_dec (fst w) (map nid g)) as [H|H]; [apply A, H|]. rewrite B, S1 by assumption. reflexivity.
    - destruct (S0 n) as (vs & outs & Rd & Ev & Po); [rewrite Eg; apply in_or_app; right; left; reflexivity|].
      cbn [eval]. rewrite (read_ext e1 e), Rd, Ev.
      2:{ intros w Hw. apply A. destruct (Tp l1 n l2 Eg w Hw) as (m & Hm & E & _). rewrite <- E. apply in_map, Hm. }
      destruct (IH (l1 ++ [n]) (bind (nid n) outs e1)) as (e2 & E2 & Q).
      + rewrite <- app_assoc. exact Eg.
      + intros w Hw. unfold bind. destruct (Nat.eqb_spec (fst w) (nid n)) as [E|E]; [rewrite <- Po, <- E; destruct w; reflexivity|].
        apply A. rewrite map_app in Hw. apply in_app_or in Hw. destruct Hw as [H|[H|[]]]; [assumption|congruence].
      + intros w Hw. rewrite map_app in Hw. unfold bind. destruct (Nat.eqb_spec (fst w) (nid n)) as [E|E]; [exfalso; apply Hw; apply in_or_app; right; left; auto|]. apply B. intro K. apply Hw. apply in_or_app. auto.
      + exists e2. auto. }
  apply (G g [] (fun _ => None)); auto. intros w [].
Qed.
Lemma run_sol : forall (g : graph) e, topological g -> run_region sem g = Some e -> sol g e.
Proof.
  intros g e [N Tp].
  assert (G : forall l2 l1 e1, g = l1 ++ l2 -> (forall n, In n l1 -> holds e1 n) -> (forall w, ~ In (fst w) (map nid l1) -> e1 w = None) ->
     eval sem l2 e1 = Some e -> sol g e).
  { induction l2 as [|n l2 IH]; intros l1 e1 Eg A B Ev.
    - injection Ev as <-. rewrite app_nil_r in Eg. subst l1. split; assumption.
    - cbn [eval] in Ev. destruct (read e1 (ins n)) as [vs|] eqn:Rd; [|discriminate]. destruct (eval_node sem (knd n) vs) as [outs|] eqn:En; [|discriminate].
      assert (Nn : ~ In (nid n) (map nid l1)) by (rewrite Eg in N; apply (ids_app_notin l1 l2 n N)).
      assert (RB : forall ws, (forall w, In w ws -> In (fst w) (map nid l1)) -> read (bind (nid n) outs e1) ws = read e1 ws).
      { intros ws Hws. apply read_ext. intros w Hw. unfold bind. destruct (Nat.eqb_spec (fst w) (nid n)) as [E|E]; [|reflexivity]. exfalso. apply Nn. rewrite <- E. auto. }
      apply (IH (l1 ++ [n]) (bind (nid n) outs e1)); [rewrite <- app_assoc; exact Eg| | |exact Ev].
      + intros m Hm. apply in_app_or in Hm. destruct Hm as [Hm|[<-|[]]].
        * destruct (A m Hm) as (vs' & outs' & R' & E' & P'). exists vs', outs'. split.
          -- rewrite RB; [exact R'|]. intros w Hw. apply in_split in Hm. destruct Hm as (x & y & ->). rewrite <- app_assoc in Eg. destruct (Tp x m _ Eg w Hw) as (k & Hk & Ek & _). rewrite <- Ek. rewrite map_app. apply in_or_app. left. apply in_map, Hk.
          -- split; [exact E'|]. intro p. unfold bind. simpl. destruct (Nat.eqb_spec (nid m) (nid n)) as [E|E]; [|apply P']. exfalso. apply Nn. rewrite <- E. apply in_map, Hm.
        * exists vs, outs. split.
          -- rewrite RB; [exact Rd|]. intros w Hw. destruct (Tp l1 n l2 Eg w Hw) as (k & Hk & Ek & _). rewrite <- Ek. apply in_map, Hk.
          -- split; [exact En|]. intro p. unfold bind. simpl. rewrite Nat.eqb_refl. reflexivity.
      + intros w Hw. rewrite map_app in Hw. unfold bind. destruct (Nat.eqb_spec (fst w) (nid n)) as [E|E]; [exfalso; apply Hw; apply in_or_app; right; left; auto|]. apply B. intro K. apply Hw. apply in_or_app. auto. }
  intro Ev. apply (G g [] (fun _ => None)); auto. intros n [].
Qed.

Lemma eval_node_length : forall k vs outs, eval_node sem k vs = Some outs -> length outs = n_outs k.
Proof.
  intros k vs outs E. destruct k; cbn [eval_node] in E; simpl.
  - destruct vs as [|[c|?|?] [|[?|i|?] [|]]]; try discriminate. destruct (nth_error c i) as [[v|]|]; try discriminate. injection E as <-. reflexivity.
  - destruct vs as [|[c|?|?] [|[?|i|?] [|v [|]]]]; try discriminate. destruct (nth_error c i) as [[?|]|]; try discriminate. injection E as <-. reflexivity.
  - destruct vs; [|discriminate]. injection E as <-. reflexivity.
  - destruct (sem o vs) as [l|]; [|discriminate]. destruct (Nat.eqb_spec (length l) outs0) as [Q|]; [|discriminate]. congruence.
Qed.
Lemma sol_defined : forall (g : graph) e w, sol g e -> produced g w -> exists x, e w = Some x.
Proof.
  intros g e [n p] [S0 _] (m & Hm & E & L). simpl in *. subst n. destruct (S0 m Hm) as (vs & outs & _ & Ev & Po). rewrite Po. apply eval_node_length in Ev.
  destruct (nth_error outs p) as [x|] eqn:N; [exists x; reflexivity|]. apply nth_error_None in N. lia.
Qed.

(** ** Cells *)
Notation cells := (list (option (val X))).
Lemma nth_set_same : forall i x (c : cells) y, nth_error c i = Some y -> nth_error (set_cell i x c) i = Some x.
Proof. induction i as [|i IH]; intros x [|z c] y H; simpl in *; try discriminate; [reflexivity|]. eapply IH, H. Qed.
Lemma nth_set_other : forall i j x (c : cells), i <> j -> nth_error (set_cell i x c) j = nth_error c j.
Proof.
  induction i as [|i IH]; intros [|j] x [|z c] H; try reflexivity; [congruence|]. simpl. apply IH. congruence.
Qed.
Lemma set_set_same : forall i x y (c : cells), set_cell i x (set_cell i y c) = set_cell i x c.
Proof. induction i as [|i IH]; intros x y [|z c]; try reflexivity. simpl. rewrite IH. reflexivity. Qed.
Lemma set_set_other : forall i j x y (c : cells), i <> j -> set_cell i x (set_cell j y c) = set_cell j y (set_cell i x c).
Proof. induction i as [|i IH]; intros [|j] x y [|z c] H; try reflexivity; [congruence|]. simpl. rewrite IH by congruence. reflexivity. Qed.
Lemma set_id : forall i (c : cells) x, nth_error c i = Some x -> set_cell i x c = c.
Proof. induction i as [|i IH]; intros [|z c] x H; simpl in *; try discriminate; [congruence|]. rewrite IH by assumption. reflexivity. Qed.

(** ** same_behaviour *)
Lemma same_refl : forall g : graph, same_behaviour sem g g.
Proof.
  intro g. split; [intros n H; exists n; auto|]. destruct (run_region sem g) as [e|]; [|exact I]. split; [intros n H _; exists n; auto|auto].
Qed.
Lemma same_trans : forall g1 g2 g3 : graph, same_behaviour sem g1 g2 -> same_behaviour sem g2 g3 -> same_behaviour sem g1 g3.
Proof.
  intros g1 g2 g3 [A1 A2] [B1 B2]. split.
  - intros n H. destruct (B1 n H) as (n2 & H2 & E2 & K2). destruct (A1 n2 H2) as (n1 & H1 & E1' & K1). exists n1. split; [assumption|]. split; congruence.
  - destruct (run_region sem g1) as [e1|], (run_region sem g2) as [e2|]; try contradiction; destruct (run_region sem g3) as [e3|]; try contradiction; [|exact I].
    destruct A2 as [A2 A3]. destruct B2 as [B2 B3]. split.
    + intros n H K. destruct (A2 n H K) as (n2 & H2 & E2 & K2 & R2). destruct (B2 n2 H2) as (n3 & H3 & E3 & K3 & R3); [congruence|]. exists n3. split; [assumption|]. split; [congruence|]. split; congruence.
    + intros n p H K. destruct (B1 n H) as (n2 & H2 & E2 & K2). rewrite (B3 n p H K). rewrite <- E2. apply A3; [assumption|]. rewrite K2. assumption.
Qed.
End Sol.
