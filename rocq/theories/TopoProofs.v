(** The walk visits exactly the nodes that are not after a cycle, in order. *)
From Coq Require Import List Bool Arith Lia.
From Verif Require Import TopoSpec TopoModel.
Import ListNotations.

Lemma visits_grounded : forall ids preds l, visits_in_order ids preds l -> forall n, In n l -> grounded ids preds n.
Proof.
  intros ids preds l (N & I & H). assert (K : forall l1 l2, l = l1 ++ l2 -> forall n, In n l1 -> grounded ids preds n).
  { induction l1 as [|x l1 IH] using rev_ind; intros l2 E n Hn; [destruct Hn|]. apply in_app_or in Hn. rewrite <- app_assoc in E. simpl in E. destruct Hn as [Hn|[<-|[]]]; [eapply IH; eauto|].
    constructor; [apply I; rewrite E; apply in_or_app; right; left; reflexivity|]. intros p Hp. apply (IH _ E). apply (H l1 x l2 E). assumption. }
  intros n Hn. apply (K l []); [rewrite app_nil_r; reflexivity|assumption].
Qed.
Lemma walk_iff : forall ids preds l, walk_of ids preds l -> forall n, In n l <-> grounded ids preds n.
Proof. intros ids preds l [V G] n. split; [eapply visits_grounded; eauto|apply G]. Qed.

Section Topo.
Variables (ids : list nat) (succs preds : nat -> list nat).
Hypothesis nodup : NoDup ids.
Hypothesis edges : forall n m, In n ids -> In m ids -> (In m (succs n) <-> In n (preds m)).
Hypothesis inside : forall n m, In n ids -> In m (succs n) -> In m ids.

Lemma seen_In : forall out n, seen out n = true <-> In n out.
Proof.
  intros out n. unfold seen. rewrite existsb_exists. split; [intros (x & H & E); apply Nat.eqb_eq in E; subst; assumption|intro H; exists n; split; [assumption|apply Nat.eqb_refl]].
Qed.
Lemma seen_all : forall out l, forallb (seen out) l = true <-> incl l out.
Proof. intros out l. rewrite forallb_forall. unfold incl. split; intros H x Hx; apply seen_In, H, Hx. Qed.

(** What is still to be stacked. *)
Definition left (out : list nat) : nat := length (flat_map succs (filter (fun n => negb (seen out n)) ids)).
Lemma left_visit : forall n out, In n ids -> ~ In n out -> left (n :: out) + length (succs n) = left out.
Proof.
  intros n out Hn Ho. unfold left. clear edges inside. revert nodup Hn. induction ids as [|x l IH]; intros N Hn; [destruct Hn|]. inversion N as [|? ? Nx Nl]; subst. cbn [filter flat_map].
  destruct Hn as [->|Hn].
  - replace (seen (n :: out) n) with true by (symmetry; apply seen_In; left; reflexivity).
    replace (seen out n) with false by (symmetry; apply not_true_is_false; rewrite seen_In; assumption). cbn [filter flat_map negb]. rewrite app_length.
    replace (filter (fun n0 => negb (seen (n :: out) n0)) l) with (filter (fun n0 => negb (seen out n0)) l); [lia|].
    apply filter_ext_in. intros y Hy. f_equal. apply eq_true_iff_eq. rewrite !seen_In. simpl. split; [auto|]. intros [->|]; [contradiction|assumption].
  - specialize (IH Nl Hn). assert (E : seen (n :: out) x = seen out x). { apply eq_true_iff_eq. rewrite !seen_In. simpl. split; [|auto]. intros [->|]; [contradiction|assumption]. }
    rewrite E. destruct (negb (seen out x)); cbn [filter flat_map]; rewrite ?app_length; lia.
Qed.
Definition inv (stack out : list nat) : Prop :=
  incl stack ids /\ visits_in_order ids preds (rev out) /\ (forall n, In n stack -> incl (preds n) out) /\
  (forall n, In n ids -> incl (preds n) out -> In n out \/ In n stack).
Lemma loop_ok : forall fuel stack out, inv stack out -> length stack + left out < fuel ->
  exists l, topo_loop succs preds fuel stack out = Some l /\ walk_of ids preds l.
Proof.
  induction fuel as [|fuel IH]; intros stack out (I1 & (V1 & V2 & V3) & I3 & I4) L; [lia|]. destruct stack as [|n stack]; simpl.
  - exists (rev out). split; [reflexivity|]. split; [repeat split; assumption|]. intros n G. induction G as [n Hn Hp IHp]. apply -> in_rev. destruct (I4 n Hn) as [K|[]]; [|assumption]. intros p P. apply in_rev. auto.
  - destruct (seen out n) eqn:Sn.
    + apply seen_In in Sn. apply IH; [|simpl in L; lia]. split; [intros x Hx; apply I1; right; assumption|]. split; [repeat split; assumption|]. split; [intros x Hx; apply I3; right; assumption|].
      intros x Hx Px. destruct (I4 x Hx Px) as [K|[->|K]]; auto.
    + assert (Nn : ~ In n out) by (rewrite <- seen_In, Sn; discriminate). assert (Hn : In n ids) by (apply I1; left; reflexivity). assert (Pn : incl (preds n) out) by (apply I3; left; reflexivity).
      set (new := filter (fun m => forallb (seen (n :: out)) (preds m)) (succs n)).
      apply IH.
      * split; [|split; [|split]].
        -- intros x Hx. apply in_app_or in Hx. destruct Hx as [Hx|Hx]; [|apply I1; right; assumption]. apply in_rev, filter_In in Hx. apply (inside n); tauto.
        -- simpl. split; [|split].
           ++ apply NoDup_rev in V1. rewrite rev_involutive in V1. change (rev out ++ [n]) with (rev (n :: out)). apply NoDup_rev. constructor; assumption.
           ++ intros x Hx. apply in_app_or in Hx. destruct Hx as [Hx|[<-|[]]]; auto.
           ++ intros l1 m l2 E. destruct l2 as [|y l2] using rev_ind.
              ** apply app_inj_tail in E. destruct E as [<- <-]. intros p Hp. apply -> in_rev. auto.
              ** rewrite app_comm_cons, app_assoc in E. apply app_inj_tail in E. destruct E as [E _]. eapply V3; eauto.
        -- intros x Hx. apply in_app_or in Hx. destruct Hx as [Hx|Hx].
           ++ apply in_rev, filter_In in Hx. apply seen_all. tauto.
           ++ intros p Hp. right. apply (I3 x); [right; assumption|assumption].
        -- intros x Hx Px. destruct (in_dec Nat.eq_dec n (preds x)) as [P|P].
           ++ right. apply in_or_app. left. apply -> in_rev. apply filter_In. split; [apply edges; assumption|apply seen_all; assumption].
           ++ assert (Px' : incl (preds x) out). { intros p Hp. destruct (Px p Hp) as [->|K]; [contradiction|assumption]. }
              destruct (I4 x Hx Px') as [K|[->|K]]; [left; right; assumption|left; left; reflexivity|right; apply in_or_app; right; assumption].
      * rewrite app_length, rev_length. assert (length new <= length (succs n)). { unfold new. clear. induction (succs n) as [|x l IH]; simpl; [lia|]. destruct (forallb _ _); simpl; lia. }
        pose proof (left_visit n out Hn Nn). simpl in L. lia.
Qed.
Theorem topo_ok : exists l, topo ids succs preds = Some l /\ walk_of ids preds l.
Proof.
  unfold topo, topo_fuel. apply loop_ok.
  - split; [|split; [|split]].
    + intros x Hx. unfold topo_start in Hx. apply in_rev, filter_In in Hx. tauto.
    + split; [constructor|]. split; [intros x []|]. intros l1 n l2 E. destruct l1; discriminate.
    + intros n Hn. unfold topo_start in Hn. apply in_rev, filter_In in Hn. destruct Hn as [_ Hn]. destruct (preds n); [intros p []|discriminate].
    + intros n Hn P. right. unfold topo_start. apply -> in_rev. apply filter_In. split; [assumption|]. destruct (preds n) as [|p l]; [reflexivity|]. destruct (P p (or_introl eq_refl)).
  - unfold topo_start. rewrite rev_length. assert (forall (f : nat -> bool) l, length (filter f l) <= length l). { intros f l. induction l as [|x l IH]; simpl; [lia|]. destruct (f x); simpl; lia. }
    assert (left [] = length (flat_map succs ids)). { unfold left. f_equal. f_equal. clear. induction ids as [|x l IH]; [reflexivity|]. cbn [filter negb]. change (seen [] x) with false. cbn [negb]. rewrite IH. reflexivity. }
    specialize (H (fun n => match preds n with [] => true | _ => false end) ids). lia.
Qed.
End Topo.
