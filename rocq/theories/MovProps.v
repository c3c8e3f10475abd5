(** Properties of circuits that are put back in place, C95 and C96. *)
From Coq Require Import List Arith Bool Lia.
From Verif Require Import MovModel MovSpec MovProofs MovProofs2 MovProofs3 MovMain.
Import ListNotations.

(** ** C95. When the circuit is put back in place of the region, the nodes that are kept are where they were: unsupported nodes
    are again in the region, what is inside them and outside the region has not moved, and encoded nodes are gone. *)
Theorem C95_nodes :
  forall ins outs kin kout rg steps h depth root, setting ins outs rg steps h depth root ->
    let h' := reassemble outs kin kout depth rg steps h in
    (forall n, In n (moved steps) -> parent h' n = parent h n) /\
    (forall n, kept rg steps h n -> parent h' n = parent h n) /\
    (forall n, encoded rg steps h n \/ n = old_in rg \/ n = old_out rg -> gone rg steps h n) /\
    (forall n, gone rg steps h n -> parent h' n = None) /\
    (forall s t, In (s, t) (links h') -> ~ gone rg steps h (fst s) /\ ~ gone rg steps h (fst t)) /\
    (forall n, parent h n = Some (r_new rg) -> parent h' n = Some (r_old rg)).
Proof. exact C95_nodes_pf. Qed.

(** Links between nodes that are kept stay, and nothing else is linked to their targets: within a group, between groups for
    unsupported types, and to and from the outside; but not from outputs with registers that leave a group. *)
Theorem C95_links_partial :
  forall ins outs kin kout rg steps h depth root, setting ins outs rg steps h depth root -> forall s t,
    kept rg steps h (fst s) -> kept rg steps h (fst t) -> only_source h s t ->
    ~ (kout s = Reg /\ leaves outs rg steps h s) -> (enters ins rg steps h t -> kin t = Uns) ->
    only_source (reassemble outs kin kout depth rg steps h) s t.
Proof. exact C95_links_partial_pf. Qed.

(** Links from the input node of the region become links from the new input node, if their type is unsupported or they go to a
    nested region. *)
Theorem C95_inputs_partial :
  forall ins outs kin kout rg steps h depth root, setting ins outs rg steps h depth root -> typed ins outs kin kout h -> forall i t,
    kept rg steps h (fst t) -> only_source h (old_in rg, i) t -> (enters ins rg steps h t -> kin t = Uns) ->
    only_source (reassemble outs kin kout depth rg steps h) (new_in rg, i) t.
Proof. exact C95_inputs_partial_pf. Qed.

(** ** C96. Values with registers and parameters which a group gets from encoded nodes, from the input node or, with registers, from
    other groups, come in the end from the wire that the decoder found, and from nowhere else. *)
Theorem C96_found_partial :
  forall ins outs kin kout rg steps h depth root, setting ins outs rg steps h depth root -> typed ins outs kin kout h ->
    forall before_ sg found after s t, steps = before_ ++ Sub sg found :: after -> In (fst t) (sg_nodes sg) ->
    enters ins rg steps h t -> only_source h s t -> kin t <> Uns -> (kin t = Par -> ~ In (fst s) (moved steps)) ->
    only_source (reassemble outs kin kout depth rg steps h) (found t) t.
Proof. exact C96_found_partial_pf. Qed.

(** Outputs of unsupported types, and parameters, that went to the output node of the region go to the new one. *)
Theorem C96_outputs :
  forall ins outs kin kout rg steps h depth root, setting ins outs rg steps h depth root -> forall s i,
    In (fst s) (moved steps) -> value_out outs s -> kout s <> Reg -> only_source h s (old_out rg, i) ->
    In (s, (new_out rg, i)) (links (reassemble outs kin kout depth rg steps h)).
Proof. exact C96_outputs_pf. Qed.

(** A value with registers which a group both uses itself and gives to others loses the link inside the group. *)
Theorem C96_shared_refuted :
  forall ins outs kin kout rg steps h depth root, setting ins outs rg steps h depth root -> forall s t,
    kept rg steps h (fst t) -> only_source h s t -> ~ enters ins rg steps h t -> leaves outs rg steps h s -> kout s = Reg ->
    no_source (reassemble outs kin kout depth rg steps h) t.
Proof. exact C96_shared_refuted_pf. Qed.

(** A parameter which one group gets from another is linked twice: to the old source, and to a wire of the decoder. *)
Theorem C96_params_refuted :
  forall ins outs kin kout rg steps h depth root, setting ins outs rg steps h depth root -> typed ins outs kin kout h ->
    forall before_ sg found after s t, steps = before_ ++ Sub sg found :: after -> In (fst t) (sg_nodes sg) ->
    enters ins rg steps h t -> only_source h s t -> kin t = Par -> In (fst s) (moved steps) ->
    let h' := reassemble outs kin kout depth rg steps h in
    In (s, t) (links h') /\ In (found t, t) (links h') /\ forall x, ~ only_source h' x t.
Proof. exact C96_params_refuted_pf. Qed.

(** A link from an encoded node to a nested region, or for the order of effects, is lost. *)
Theorem C96_nonlocal_refuted :
  forall ins outs kin kout rg steps h depth root, setting ins outs rg steps h depth root -> forall s t,
    kept rg steps h (fst t) -> only_source h s t -> ~ enters ins rg steps h t -> encoded rg steps h (fst s) ->
    no_source (reassemble outs kin kout depth rg steps h) t.
Proof. exact C96_nonlocal_refuted_pf. Qed.

(** ** Instances *)
(** A function (node 1) in a module (0), with input 2 and output 3, and the decoded function 4, with input 5, output 6 and a gate 12. The
    unsupported operations are 7 and 8, in one group, and 11, in another; 8 has a region with node 10.  A gate, 9, was encoded. The first
    output of 7 has an unsupported type, the second is a bit and the third an angle. *)
Definition ex_par (n : nat) : option nat :=
  nth n [None; Some 0; Some 1; Some 1; Some 0; Some 4; Some 4; Some 1; Some 1; Some 1; Some 8; Some 1; Some 4] None.
Definition ex_rg : regions := {| r_old := 1; r_new := 4; old_in := 2; old_out := 3; new_in := 5; new_out := 6 |}.
Definition ex_links : list link :=
  [((2, 0), (7, 0)); ((2, 1), (9, 0)); ((2, 2), (10, 1)); ((7, 0), (8, 0)); ((7, 1), (8, 1)); ((7, 1), (3, 0)); ((7, 2), (11, 1));
   ((9, 0), (11, 0)); ((9, 1), (10, 0)); ((8, 0), (3, 1)); ((11, 0), (3, 2))].
Definition ex_h : hugr := {| parent := ex_par; links := ex_links |}.
Definition ex_ins (n : nat) : nat := nth n [0; 0; 0; 3; 0; 0; 3; 1; 2; 1; 2; 2; 1] 0.
Definition ex_outs (n : nat) : nat := nth n [0; 0; 3; 0; 0; 3; 0; 3; 1; 2; 0; 1; 1] 0.
Definition ex_kout (s : port) : kind :=
  nth (fst s) [fun _ => Uns; fun _ => Uns; fun i => nth i [Uns; Reg] Uns; fun _ => Uns; fun _ => Uns; fun _ => Uns; fun _ => Uns;
    fun i => nth i [Uns; Reg; Par] Uns; fun _ => Uns; fun i => Reg; fun _ => Uns; fun _ => Reg] (fun _ => Reg) (snd s).
Definition ex_kin (t : port) : kind :=
  match map fst (filter (fun e => same (snd e) t) ex_links) with s :: _ => ex_kout s | [] => Uns end.
Definition ex_found1 (t : port) : port := (12, 0).
Definition ex_found2 (t : port) : port := (12, snd t).
Definition ex_a : subgraph := try_from_nodes ex_ins ex_outs ex_h 0 [7; 8].
Definition ex_b : subgraph := try_from_nodes ex_ins ex_outs ex_h 0 [11].
Definition ex_steps : list step := [Sub ex_a ex_found1; New [((5, 1), (12, 0))]; Sub ex_b ex_found2; New [((7, 1), (6, 0)); ((11, 0), (6, 2))]].

Lemma ex_le : forall n p, ex_par n = Some p -> p < n.
Proof. intros n p. do 13 (destruct n as [|n]; [unfold ex_par; simpl; intros E; (discriminate E || (injection E as <-; lia))|]). unfold ex_par. simpl. destruct n; discriminate. Qed.
Lemma ex_within : forall a n, within ex_par a n -> In n [a] \/ exists p, ex_par n = Some p /\ within ex_par a p.
Proof. intros a n W. inversion W as [|? p E W']; subst; [left; now left|right; eauto]. Qed.
Ltac ex_out := repeat match goal with
  | W : within (parent ex_h) _ _ |- _ => change (parent ex_h) with ex_par in W
  | W : within ex_par ?a ?n |- _ => apply ex_within in W; destruct W as [[W|[]]|(? & W & ?)]; [discriminate W|]; simpl in W; (discriminate W || (injection W as <-)) end.
Ltac ex_cases I := repeat (destruct I as [I|I]; [try (injection I as <- <-)|]); try destruct I.
Lemma ex_setting : setting ex_ins ex_outs ex_rg ex_steps ex_h 20 0.
Proof.
  constructor.
  - exists (fun n => if Nat.leb n 12 then n else 13). split.
    + intros n. destruct (Nat.leb n 12) eqn:E; [apply Nat.leb_le in E; lia|lia].
    + intros n p E. pose proof (ex_le n p E) as L. change (ex_par n = Some p) in E. destruct (Nat.leb n 12) eqn:N.
      * apply Nat.leb_le in N. replace (Nat.leb p 12) with true by (symmetry; apply Nat.leb_le; lia). exact L.
      * apply Nat.leb_gt in N. unfold ex_par in E. rewrite nth_overflow in E by (simpl; lia). discriminate.
  - split; [reflexivity|]. split; [reflexivity|discriminate].
  - split; [reflexivity|]. split; [reflexivity|discriminate].
  - split; intros W; cbn in W; ex_out.
  - intros s t I. simpl in I. ex_cases I; split; intros W; cbn in W; ex_out.
  - cbn. repeat (constructor; [simpl; lia|]). constructor.
  - intros n I. cbn in I. destruct I as [<-|[<-|[<-|[]]]]; (split; [reflexivity|split; discriminate]).
  - intros sg found [E|[E|[E|[E|[]]]]]; try discriminate E; injection E as <- <-; reflexivity.
  - intros before_ sg found after E t I. left. destruct before_ as [|x [|y [|z [|w [|v l]]]]]; cbn in E; try discriminate E;
      injection E; intros; subst; reflexivity.
  - intros es s t [E|[E|[E|[E|[]]]]] I; try discriminate E; injection E as <-; simpl in I; ex_cases I;
      (eapply within_child; [reflexivity|constructor]).
Qed.
Lemma ex_typed : typed ex_ins ex_outs ex_kin ex_kout ex_h.
Proof. intros s t I. simpl in I. ex_cases I; (split; [unfold value_in, value_out; simpl; split; intros; unfold ex_ins, ex_outs; simpl; lia|reflexivity]). Qed.
Lemma ex_kept : forall n, In n [7; 8; 10; 11] -> kept ex_rg ex_steps ex_h n.
Proof.
  intros n I. split; [intros W; cbn in W; repeat (destruct I as [<-|I]; [ex_out|]); destruct I|]. left. destruct I as [<-|[<-|[<-|[<-|[]]]]].
  - exists 7. split; [now left|constructor].
  - exists 8. split; [right; now left|constructor].
  - exists 8. split; [right; now left|]. eapply within_child; [reflexivity|constructor].
  - exists 11. split; [right; right; now left|constructor].
Qed.
Lemma ex_only : forall s t, map fst (filter (fun e => same (snd e) t) ex_links) = [s] -> only_source ex_h s t.
Proof. intros s t E. apply only_iff. exact E. Qed.
Lemma ex_inner : ~ enters ex_ins ex_rg ex_steps ex_h (8, 0) /\ ~ enters ex_ins ex_rg ex_steps ex_h (8, 1) /\
  ~ enters ex_ins ex_rg ex_steps ex_h (10, 0) /\ ~ enters ex_ins ex_rg ex_steps ex_h (10, 1).
Proof.
  repeat split; intros E; apply (enters_sub _ _ _ _ _ _ _ ex_setting) in E; destruct E as (sg & found & [I|[I|[I|[I|[]]]]] & J); try discriminate I;
    injection I as <- <-; vm_compute in J; repeat (destruct J as [J|J]; [discriminate J|]); destruct J.
Qed.
Lemma ex_enters : enters ex_ins ex_rg ex_steps ex_h (7, 0) /\ enters ex_ins ex_rg ex_steps ex_h (11, 0) /\ enters ex_ins ex_rg ex_steps ex_h (11, 1).
Proof.
  repeat split; try (unfold value_in, ex_ins; simpl; lia).
  - exists [7; 8], (2, 0). split; [now left|]. split; [now left|]. split; [simpl; auto|]. split; [reflexivity|]. simpl. lia.
  - exists [11], (9, 0). split; [right; now left|]. split; [now left|]. split; [simpl; auto 12|]. split; [reflexivity|]. simpl. lia.
  - exists [11], (7, 2). split; [right; now left|]. split; [now left|]. split; [simpl; auto 12|]. split; [reflexivity|]. simpl. lia.
Qed.
Notation ex_final := (reassemble ex_outs ex_kin ex_kout 20 ex_rg ex_steps ex_h).
Example inst_nodes : parent ex_final 7 = Some 1 /\ parent ex_final 10 = Some 8 /\ parent ex_final 9 = None /\ parent ex_final 12 = Some 1.
Proof.
  destruct (C95_nodes _ _ ex_kin ex_kout _ _ _ _ _ ex_setting) as (A & B & C & C' & _ & D). split; [rewrite A; [reflexivity|now left]|].
  split; [rewrite B; [reflexivity|apply ex_kept; simpl; auto]|]. split; [|apply D; reflexivity]. apply C', C. left. split; [reflexivity|]. split; [discriminate|]. split; [discriminate|]. simpl. lia.
Qed.
(** The link of unsupported type inside the group. *)
Example inst_links : only_source ex_final (7, 0) (8, 0).
Proof.
  apply (C95_links_partial ex_ins ex_outs ex_kin ex_kout ex_rg ex_steps ex_h 20 0 ex_setting); [apply ex_kept; simpl; auto|apply ex_kept; simpl; auto|now apply ex_only|intros [E _]; discriminate E|].
  intros E. exfalso. destruct ex_inner as (? & ? & ? & ?). contradiction.
Qed.
(** The array from the input, and the value which the nested region takes from the input. *)
Example inst_inputs : only_source ex_final (5, 0) (7, 0) /\ only_source ex_final (5, 2) (10, 1).
Proof.
  split.
  - apply (C95_inputs_partial ex_ins ex_outs ex_kin ex_kout ex_rg ex_steps ex_h 20 0 ex_setting ex_typed); [apply ex_kept; simpl; auto|now apply ex_only|reflexivity].
  - apply (C95_inputs_partial ex_ins ex_outs ex_kin ex_kout ex_rg ex_steps ex_h 20 0 ex_setting ex_typed); [apply ex_kept; simpl; auto|now apply ex_only|].
    intros E. exfalso. destruct ex_inner as (? & ? & ? & ?). contradiction.
Qed.
(** The qubit of the gate. *)
Example inst_found : only_source ex_final (12, 0) (11, 0).
Proof.
  apply (C96_found_partial ex_ins ex_outs ex_kin ex_kout ex_rg ex_steps ex_h 20 0 ex_setting ex_typed [Sub ex_a ex_found1; New [((5, 1), (12, 0))]] ex_b ex_found2
    [New [((7, 1), (6, 0)); ((11, 0), (6, 2))]] (9, 0) (11, 0) eq_refl); [now left|apply ex_enters|now apply ex_only|discriminate|discriminate].
Qed.
Example inst_outputs : In ((8, 0), (6, 1)) (links ex_final).
Proof.
  apply (C96_outputs ex_ins ex_outs ex_kin ex_kout ex_rg ex_steps ex_h 20 0 ex_setting (8, 0) 1); [simpl; auto|unfold value_out, ex_outs; simpl; lia|discriminate|now apply ex_only].
Qed.
(** The bit which 7 gives to 8 and to the output; the angle which it gives to 11; the bit which the gate gives to the nested region. *)
Example inst_shared : no_source ex_final (8, 1).
Proof.
  apply (C96_shared_refuted ex_ins ex_outs ex_kin ex_kout ex_rg ex_steps ex_h 20 0 ex_setting (7, 1)); [apply ex_kept; simpl; auto|now apply ex_only|apply ex_inner| |reflexivity].
  split; [unfold value_out, ex_outs; simpl; lia|]. exists [7; 8], (3, 0). split; [now left|]. split; [now left|]. split; [simpl; auto 8|]. split; [reflexivity|]. simpl. lia.
Qed.
Example inst_params : forall x, ~ only_source ex_final x (11, 1).
Proof.
  apply (C96_params_refuted ex_ins ex_outs ex_kin ex_kout ex_rg ex_steps ex_h 20 0 ex_setting ex_typed [Sub ex_a ex_found1; New [((5, 1), (12, 0))]] ex_b ex_found2
    [New [((7, 1), (6, 0)); ((11, 0), (6, 2))]] (7, 2) (11, 1) eq_refl); [now left|apply ex_enters|now apply ex_only|reflexivity|now left].
Qed.
Example inst_nonlocal : no_source ex_final (10, 0).
Proof.
  apply (C96_nonlocal_refuted ex_ins ex_outs ex_kin ex_kout ex_rg ex_steps ex_h 20 0 ex_setting (9, 1)); [apply ex_kept; simpl; auto|now apply ex_only|apply ex_inner|].
  split; [reflexivity|]. split; [discriminate|]. split; [discriminate|]. simpl. lia.
Qed.

Print Assumptions C95_nodes.
Print Assumptions C95_links_partial.
Print Assumptions C95_inputs_partial.
Print Assumptions C96_found_partial.
Print Assumptions C96_outputs.
Print Assumptions C96_shared_refuted.
Print Assumptions C96_params_refuted.
Print Assumptions C96_nonlocal_refuted.
