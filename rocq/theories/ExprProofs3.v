(** Proofs about the order in which inputs are found. *)
From Coq Require Import List Bool Arith Lia Permutation.
From Verif Require Import ScopeModel ScopeSpec ExprModel ExprSpec ExprProofs ExprProofs2.
Import ListNotations.

Section Found.
Variable g : graph.
Variable scope : list nat.
Variable st : state.
Variable callee : nat -> option nat.
Variable choose : list nat -> list nat -> nat.
Variable allowed : list (nat * nat).
Variable excluded : list nat.
Notation visit_ports := (visit_ports g scope st allowed excluded).
Notation visit := (visit g scope st callee allowed excluded).
Notation traverse := (traverse g scope st callee choose allowed excluded).

Definition sooner (nodes : list nat) (q q' : nat * nat) : Prop :=
  (fst q = fst q' /\ snd q < snd q') \/ before (fst q') (fst q) nodes.
Definition found (nodes : list nat) (inputs : list (nat * nat)) : Prop :=
  (forall q, In q inputs -> In (fst q) nodes) /\ forall q q', before q q' inputs -> sooner nodes q q'.

Lemma before_snoc : forall {X} (l : list X) x a b, before a b (l ++ [x]) -> before a b l \/ (In a l /\ b = x).
Proof.
  intros X l x a b (l1 & l2 & l3 & E).
  destruct l3 as [|y l3] using rev_ind.
  - right. change (a :: l2 ++ [b]) with ((a :: l2) ++ [b]) in E. rewrite app_assoc in E. apply app_inj_tail in E as (-> & ->).
    split; [rewrite in_app_iff; simpl; auto|reflexivity].
  - left. replace (l1 ++ a :: l2 ++ b :: l3 ++ [y]) with ((l1 ++ a :: l2 ++ b :: l3) ++ [y]) in E.
    + apply app_inj_tail in E as (-> & _). exists l1, l2, l3. reflexivity.
    + rewrite <- !app_assoc. simpl. rewrite <- !app_assoc. reflexivity.
Qed.
Lemma before_cons : forall {X} (l : list X) x a b, before a b l -> before a b (x :: l).
Proof. intros X l x a b (l1 & l2 & l3 & ->). exists (x :: l1), l2, l3. reflexivity. Qed.
Lemma before_head : forall {X} (l : list X) x b, In b l -> before x b (x :: l).
Proof. intros X l x b J. apply in_split in J as (l1 & l2 & ->). exists [], l1, l2. reflexivity. Qed.

Lemma ports_found : forall n old c k a a2, a_nodes a = n :: old -> found (n :: old) (a_inputs a) ->
  (forall q, In q (a_inputs a) -> In (fst q) old \/ (fst q = n /\ snd q < k)) -> ~ In n old ->
  visit_ports n (seq k c) a = Some a2 ->
  a_nodes a2 = n :: old /\ found (n :: old) (a_inputs a2).
Proof.
  intros n old. induction c as [|c IH]; simpl; intros k a a2 EN F B NI H; [injection H as <-; auto|].
  destruct (source g n k) as [[m p]|]; [|discriminate].
  destruct (_ || _).
  - apply IH in H; auto.
    + cbn [a_inputs]. unfold insert_port. destruct (has_port (n, k) (a_inputs a)); [exact F|]. destruct F as (F1 & F2). split.
      * intros q J. apply in_app_iff in J as [J|[<-|[]]]; [auto|simpl; auto].
      * intros q q' X. apply before_snoc in X as [X|(J & ->)]; [apply F2; exact X|].
        destruct (B q J) as [Y|(Y & Z)]; [right; simpl; apply before_head; exact Y|left; simpl; auto].
    + cbn [a_inputs]. intros q J. apply in_insert in J as [J| ->]; [|simpl; right; split; [reflexivity|lia]].
      destruct (B q J) as [Y|(Y & Z)]; [auto|right; split; [exact Y|lia]].
  - destruct (position st m); [|discriminate]. apply IH in H; auto. cbn [a_inputs]. intros q J. destruct (B q J) as [Y|(Y & Z)]; [auto|right; split; [exact Y|lia]].
Qed.
Lemma visit_found : forall n a a2, ~ In n (a_nodes a) -> found (a_nodes a) (a_inputs a) -> visit n a = Some a2 -> found (a_nodes a2) (a_inputs a2).
Proof.
  intros n a a2 NI (F1 & F2) H. unfold ExprModel.visit in H. destruct (visit_ports _ _ _) as [a1|] eqn:E; [|discriminate].
  injection H as <-. simpl.
  assert (G : a_nodes a1 = n :: a_nodes a /\ found (n :: a_nodes a) (a_inputs a1)).
  { refine (ports_found n (a_nodes a) _ _ _ _ _ _ _ NI E); [reflexivity| |]; cbn [a_inputs].
    - split.
      + intros q J. right. auto.
      + intros q q' X. destruct (F2 q q' X) as [Y|Y]; [left; exact Y|right; apply before_cons; exact Y].
    - intros q J. left. auto. }
  destruct G as (-> & G). exact G.
Qed.
Lemma traverse_found : forall fuel a a2, traverse fuel a = Some a2 -> found (a_nodes a) (a_inputs a) -> found (a_nodes a2) (a_inputs a2).
Proof.
  induction fuel as [|fuel IH]; intros a a2 H F; [discriminate|]. cbn [ExprModel.traverse] in H.
  destruct (a_queue a) as [|q0 q] eqn:Q; [injection H as <-; exact F|].
  cbn [a_nodes] in H. destruct (has _ (a_nodes a)) eqn:HN; [apply IH in H; [exact H|exact F]|].
  destruct (visit _ _) as [a1|] eqn:E; [|discriminate]. apply IH in H; [exact H|].
  apply visit_found in E; [exact E| |exact F]. apply has_not. exact HN.
Qed.
Lemma start_found : forall out, found (a_nodes (start out)) (a_inputs (start out)).
Proof. intros out. split; [intros q []|]. intros q q' (l1 & l2 & l3 & E). destruct l1; discriminate E. Qed.

End Found.

Lemma one_way : forall {X} (l : list X) a b, NoDup l -> before a b l -> before b a l -> False.
Proof.
  intros X l a b N (l1 & l2 & l3 & E) (k1 & k2 & k3 & E'). subst l.
  assert (NB : ~ In b l1 /\ ~ In a l1 /\ a <> b).
  { split; [|split].
    - intros J. rewrite app_comm_cons, app_assoc in N. apply NoDup_remove_2 in N. apply N. rewrite !in_app_iff. auto.
    - intros J. apply NoDup_remove_2 in N. apply N. rewrite !in_app_iff. auto.
    - intros ->. apply NoDup_remove_2 in N. apply N. rewrite !in_app_iff. simpl. auto. }
  destruct NB as (NB & NA & NE). revert k1 E'. induction l1 as [|x l1 IH]; simpl in *; intros k1 E'.
  - destruct k1 as [|y k1]; simpl in E'; inversion E'; subst; [congruence|].
    inversion N as [|? ? N1 N2]; subst. apply N1. match goal with HH : l2 ++ b :: l3 = _ |- _ => rewrite HH end. rewrite !in_app_iff. simpl. rewrite in_app_iff. simpl. auto.
  - destruct k1 as [|y k1]; simpl in E'; inversion E'; subst; [tauto|]. inversion N; subst. apply (IH) with (k1 := k1); auto.
Qed.
Lemma either_way : forall {X} (l : list X) a b, In a l -> In b l -> a <> b -> before a b l \/ before b a l.
Proof.
  intros X l a b A B N. induction l as [|x l IH]; [destruct A|]. destruct A as [->|A].
  - destruct B as [->|B]; [congruence|]. left. apply before_head. exact B.
  - destruct B as [->|B]; [right; apply before_head; exact A|]. destruct (IH A B); [left|right]; apply before_cons; assumption.
Qed.
Lemma before_in : forall {X} (l : list X) a b, before a b l -> In a l /\ In b l.
Proof. intros X l a b (l1 & l2 & l3 & ->). split; rewrite !in_app_iff; simpl; rewrite ?in_app_iff; simpl; auto. Qed.
