(** Properties of expressions for copyable values, C79 to C82. *)
From Coq Require Import List Bool Arith Lia Permutation Relations.
From Verif Require Import ScopeModel ScopeSpec ReachProofs ScopeCases ExprModel ExprSpec ExprProofs ExprProofs2 ExprProofs3 ExprCases ExprMain.
Import ListNotations.

(** ** C79. An expression has exactly the nodes that the value needs, in an order in which they can be computed; its inputs
    are the ports at which values enter, each by itself; its outputs the ports whose values are used elsewhere; its
    function calls are the calling nodes, grouped by function. *)
Theorem C79_contents :
  forall g scope st callee choose allowed excluded fuel out p ins outs calls nodes,
    setting g scope st choose ->
    try_new g scope st callee choose allowed excluded fuel (out, p) = MOk (Composite ins outs calls nodes) ->
    (NoDup nodes /\ in_order g nodes /\ forall n, In n nodes <-> needed g scope allowed excluded out n) /\
    (NoDup (concat ins) /\ Forall (fun l => length l = 1) ins /\ forall q, In q (concat ins) <-> enters g scope allowed excluded out q) /\
    (NoDup outs /\ forall q, In q outs <-> leaves g scope allowed excluded out q) /\
    (NoDup (concat calls) /\ (forall n, In n (concat calls) <-> needed g scope allowed excluded out n /\ callee n <> None) /\
     (forall l, In l calls -> l <> []) /\
     forall i j l k n m, nth_error calls i = Some l -> nth_error calls j = Some k -> In n l -> In m k -> (callee n = callee m <-> i = j)).
Proof. exact C79_contents_pf. Qed.

(** ** C79. With enough fuel the constructor never panics at a copyable output of a valid circuit: a node that cannot be
    part of an expression gives the wire itself, the others an expression or the error. *)
Theorem C79_total :
  forall g scope st callee choose allowed excluded out p t,
    setting g scope st choose -> has_type g out (Outgoing, p) t -> copyable g t = true ->
    exists bound, forall fuel, bound <= fuel ->
      (~ admissible g scope excluded out -> try_new g scope st callee choose allowed excluded fuel (out, p) = MOk (Wire (out, p))) /\
      (admissible g scope excluded out ->
         try_new g scope st callee choose allowed excluded fuel (out, p) = MNotConvex \/
         exists ins outs calls nodes, try_new g scope st callee choose allowed excluded fuel (out, p) = MOk (Composite ins outs calls nodes)).
Proof. exact C79_total_pf. Qed.

(** ** C80. The inputs that were given come first, in their order; among the others, those of excluded nodes are in the order
    of these nodes, and inputs of the same kind are in the order in which they were found. *)
Theorem C80_order_partial :
  forall g scope st callee choose allowed excluded fuel out p ins outs calls nodes,
    setting g scope st choose ->
    try_new g scope st callee choose allowed excluded fuel (out, p) = MOk (Composite ins outs calls nodes) ->
    forall i j q q', i < j -> nth_error ins i = Some [q] -> nth_error ins j = Some [q'] ->
      (In q' allowed -> In q allowed) /\
      (In q allowed -> In q' allowed -> before q q' allowed) /\
      (forall n n', ~ In q allowed -> ~ In q' allowed -> from g q n -> from g q' n' -> In n excluded -> In n' excluded ->
         n = n' \/ before n n' excluded).
Proof. exact C80_order_partial_pf. Qed.

(** ** C80. The sort keeps the order in which they were found, of the inputs from elsewhere and of the inputs from one node. *)
Theorem C80_stable :
  forall g allowed excluded l ins, sort_inputs g allowed excluded l = Some ins ->
    Permutation (concat ins) l /\
    forall l1 q l2 q' l3, l = l1 ++ q :: l2 ++ q' :: l3 -> NoDup l ->
      (elsewhere g allowed excluded q /\ elsewhere g allowed excluded q' \/
       exists n, ~ In q allowed /\ ~ In q' allowed /\ from g q n /\ from g q' n) ->
      before q q' (concat ins).
Proof. exact C80_stable_pf. Qed.

(** ** C80. The inputs from elsewhere, and those from one node, are in the order in which the traversal finds them: later nodes
    first, the ports of a node in their order. *)
Theorem C80_found :
  forall g scope st callee choose allowed excluded fuel out p ins outs calls nodes,
    setting g scope st choose ->
    try_new g scope st callee choose allowed excluded fuel (out, p) = MOk (Composite ins outs calls nodes) ->
    forall q q', before q q' (concat ins) ->
      (elsewhere g allowed excluded q /\ elsewhere g allowed excluded q' \/
       exists n, ~ In q allowed /\ ~ In q' allowed /\ from g q n /\ from g q' n) ->
      (fst q = fst q' /\ snd q < snd q') \/ before (fst q') (fst q) nodes.
Proof. exact C80_found_pf. Qed.

(** ** C80. The inputs of excluded nodes are to come before those from elsewhere (expression.rs:56-61); it is the other way
    round, since no index is less than any index. *)
Theorem C80_order_refuted :
  exists g scope st callee choose allowed excluded fuel out p ins outs calls nodes,
    setting g scope st choose /\ NoDup excluded /\
    try_new g scope st callee choose allowed excluded fuel (out, p) = MOk (Composite ins outs calls nodes) /\
    exists q q' n, ins = [[q]; [q']] /\ elsewhere g allowed excluded q /\ ~ In q' allowed /\ from g q' n /\ In n excluded.
Proof. exact C80_order_refuted_pf. Qed.

(** ** C81. An expression is convex, and every node of it is on a path to the output. *)
Theorem C81_convex_partial :
  forall g scope st callee choose allowed excluded fuel out p ins outs calls nodes,
    setting g scope st choose -> values_only g ->
    try_new g scope st callee choose allowed excluded fuel (out, p) = MOk (Composite ins outs calls nodes) ->
    convex g scope (fun n => In n nodes) /\ forall n, In n nodes -> path g scope n out.
Proof. exact C81_convex_partial_pf. Qed.

(** ** C81. The error is not only given for expressions that are not convex: paths are followed between nodes, also inside
    the expression. *)
Theorem C81_complete_refuted :
  exists g scope st callee choose fuel out p t,
    setting g scope st choose /\ values_only g /\ has_type g out (Outgoing, p) t /\ copyable g t = true /\
    convex g scope (needed g scope [] [] out) /\
    forall more, try_new g scope st callee choose [] [] (fuel + more) (out, p) = MNotConvex.
Proof. exact C81_complete_refuted_pf. Qed.

(** ** C81. With no inputs given and no nodes excluded, expressions are said to be always convex (expression.rs:22-24); they
    are not: the value may also pass through an operation with a qubit. *)
Theorem C81_default_refuted :
  exists g scope st callee choose out p t,
    setting g scope st choose /\ values_only g /\ has_type g out (Outgoing, p) t /\ copyable g t = true /\ admissible g scope [] out /\
    ~ convex g scope (needed g scope [] [] out) /\
    forall fuel ins outs calls nodes, try_new g scope st callee choose [] [] fuel (out, p) <> MOk (Composite ins outs calls nodes).
Proof. exact C81_default_refuted_pf. Qed.

(** ** C82. Evaluating the nodes of an expression in their order, knowing only the values at its inputs, gives the values that
    the whole circuit has, at every port of its nodes, so at the output and at all the outputs. *)
Theorem C82_value :
  forall g scope st callee choose allowed excluded fuel out p ins outs calls nodes,
    setting g scope st choose ->
    try_new g scope st callee choose allowed excluded fuel (out, p) = MOk (Composite ins outs calls nodes) ->
    forall (V : Type) (op : nat -> list V -> list V) (val : nat * nat -> V) (given : list ((nat * nat) * V)),
      run_of g scope excluded V op val ->
      (forall q, In q (map fst given) <-> In q (concat ins)) ->
      (forall q v w, In (q, v) given -> source g (fst q) (snd q) = Some w -> v = val w) ->
      exists env, evaluate g V op given nodes [] = Some env /\
        (forall n r t, In n nodes -> has_type g n (Outgoing, r) t -> get env (n, r) = Some (val (n, r))) /\
        (forall q, In q outs -> get env q = Some (val q)) /\
        (forall t, has_type g out (Outgoing, p) t -> get env (out, p) = Some (val (out, p))).
Proof. exact C82_value_pf. Qed.

(** ** C82. The output of an expression is the first linked port of its output node; that is the port that was asked for if
    no other port before it is linked. *)
Theorem C82_output_partial :
  forall g scope st callee choose allowed excluded fuel out p e r,
    setting g scope st choose ->
    try_new g scope st callee choose allowed excluded fuel (out, p) = MOk e ->
    targets g out r <> [] -> (forall r', r' < r -> targets g out r' = []) -> (p = r \/ admissible g scope excluded out) ->
    output e = Some (out, r).
Proof. exact C82_output_partial_pf. Qed.

(** ** C82. The output may be another port than the one that was asked for, and there may be none at all. *)
Theorem C82_output_refuted :
  exists g scope st callee choose,
    setting g scope st choose /\ values_only g /\
    (exists out p q e, p <> q /\ targets g out p <> [] /\
       try_new g scope st callee choose [] [] 20 (out, p) = MOk e /\ output e = Some (out, q)) /\
    (exists out p t e, has_type g out (Outgoing, p) t /\ copyable g t = true /\
       try_new g scope st callee choose [] [] 20 (out, p) = MOk e /\ output e = None).
Proof. exact C82_output_refuted_pf. Qed.

(** ** Instances *)
(** Two values through the same function, then an operation and one with the result of a measurement; the excluded node is
    the second call, and the first port of the last operation is given. *)
Definition g4 : graph := make sigs4 edges4 [].
Definition scope4 : list nat := [1; 2; 3; 4; 5; 6].
Definition st4 : state := places sigs4 edges4 scope4 entries4.
Definition calls4 : nat -> option nat := fun n => if Nat.ltb n 3 then Some 7 else None.
Example setting4 : setting g4 scope4 st4 (pick st4) /\ values_only g4.
Proof. split; [apply case_setting; [repeat constructor; simpl; intuition discriminate|vm_compute; reflexivity]|apply case_values_only]. Qed.
Example made4 :
  try_new g4 scope4 st4 calls4 (pick st4) [] [] 30 (5, 0) =
    MOk (Composite [[(5, 1)]; [(1, 0)]; [(2, 0)]] [(5, 0)] [[1; 2]] [2; 1; 3; 5]) /\
  try_new g4 scope4 st4 calls4 (pick st4) [(3, 1); (5, 1)] [] 30 (5, 0) =
    MOk (Composite [[(3, 1)]; [(5, 1)]; [(1, 0)]] [(5, 0)] [[1]] [1; 3; 5]) /\
  try_new g4 scope4 st4 calls4 (pick st4) [] [] 30 (4, 1) = MOk (Wire (4, 1)) /\
  admissible g4 scope4 [] 5 /\ ~ admissible g4 scope4 [] 4.
Proof.
  do 3 (split; [vm_compute; reflexivity|]). split; [apply adm_iff; vm_compute; reflexivity|].
  intros X. apply adm_iff in X. vm_compute in X. discriminate X.
Qed.
(** Its value in numbers: doubling and adding. *)
Definition op4 (n : nat) (vs : list nat) : list nat :=
  match n, vs with
  | 1, [a] | 2, [a] => [2 * a]
  | 3, [a; b] | 5, [a; b] => [a + b]
  | 6, [a; b] => [a; b]
  | _, _ => []
  end.
Definition val4 (w : nat * nat) : nat :=
  match w with (0, 0) => 3 | (0, 1) => 5 | (1, 0) => 6 | (2, 0) => 10 | (3, 0) => 16 | (4, 1) => 1 | (5, 0) => 17 | (6, _) => 17 | _ => 0 end.
Example value4 : run_of g4 scope4 [] nat op4 val4 /\
  exists env, evaluate g4 nat op4 [((5, 1), 1); ((1, 0), 3); ((2, 0), 5)] [2; 1; 3; 5] [] = Some env /\ get env (5, 0) = Some 17.
Proof.
  split.
  - intros n A vs F. apply adm_iff in A. assert (J : In n scope4) by (apply adm_iff in A; apply A).
    simpl in J. repeat (destruct J as [<-|J]; [vm_compute in A; first [discriminate A|
      cbn in F; repeat match goal with
        | H : Forall2 _ (_ :: _) _ |- _ => inversion H; subst; clear H
        | H : Forall2 _ [] _ |- _ => inversion H; subst; clear H
        | H : exists w, _ /\ _ |- _ => destruct H as (? & ? & ?)
        | H : _ = Some _ |- _ => vm_compute in H; injection H as <-
        end; cbn in *; subst; split; [reflexivity|intros [|[|p]] v X; cbn in X; try (destruct p; discriminate X); try (injection X as <-; reflexivity); discriminate X]]|]).
    destruct J.
  - eexists. split; vm_compute; reflexivity.
Qed.

Print Assumptions C79_contents.
Print Assumptions C79_total.
Print Assumptions C80_order_partial.
Print Assumptions C80_stable.
Print Assumptions C80_found.
Print Assumptions C80_order_refuted.
Print Assumptions C81_convex_partial.
Print Assumptions C81_complete_refuted.
Print Assumptions C81_default_refuted.
Print Assumptions C82_value.
Print Assumptions C82_output_partial.
Print Assumptions C82_output_refuted.
