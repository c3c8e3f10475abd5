(** Properties of the modification of whole regions (C66 to C70). *)
From Coq Require Import Reals ZArith List Bool Arith Lia Permutation.
From Verif Require Import OpsModel ResolveModel ResolveSpec DfgModel DfgSpec DfgProofs DfgProofs2 DfgProofs3 DfgProofs4 DfgProofs5 DfgProofs6 DfgProofs7 QState GateSpec ModifierModel DfgSem DfgProofs8 DfgMain.
Import ListNotations.
Local Open Scope nat_scope.

(** ** C66: the modified region is well formed *)
(** A well formed region of unitary gates and classical operations is modified without an
    error, for any controls and with or without a dagger, in any topological order of its
    nodes.  The new region is well formed: every input port has one edge, every quantum output
    port has one edge, edges join ports of one type, and there are no cycles.  The controls
    come first in its rows, and its nodes are the old ones with the controls and the dagger
    added to the gates. *)
Theorem C66_well_formed : forall d n g order, wf g -> flat g -> topological g order ->
  (d = true -> reversible_rows (g_ins g) (g_outs g)) ->
  exists g', modify_region d n order g = Some g' /\ wf g' /\ (exists order', topological g' order') /\
    g_ins g' = repeat true n ++ g_ins g /\ g_outs g' = repeat true n ++ g_outs g /\
    forall k o', In (k, o') (g_nodes g') <->
      exists o, In (k, o) (g_nodes g) /\ o' = match o with Gate u _ _ => Gate u d n | Copied _ _ _ => o end.
Proof. exact C66_well_formed_pf. Qed.

(** Conversely, if a region is modified then all its gates are unitary: a region which
    measures, resets, allocates or frees a qubit is refused, whether or not the ports of the
    operation are used. *)
Theorem C66_refused : forall d n g order g', d = true \/ 0 < n -> modify_region d n order g = Some g' ->
  forall k, In k order -> exists o, In (k, o) (g_nodes g) /\
    match o with Gate (Tk u) d' n' => is_quantum u = true /\ d' = false /\ n' = 0 | Gate Ph d' n' => d' = false /\ n' = 0 | Copied _ _ _ => True end.
Proof. exact C66_refused_pf. Qed.

(** ** C67: regions have one run *)
(** For all inputs of the right types there is a run, and all runs carry the same values on
    all wires, give the same outputs and perform the same gates.  The outputs hold the qubits
    of the inputs, and no gate gets the same qubit twice. *)
Theorem C67_one_run : forall (A : Type) (cl : nat -> list A -> nat -> A) g order ins,
  wf g -> topological g order ->
  (forall k l i o, In (k, Copied l i o) (g_nodes g) -> forall b, In b (i ++ o) -> b = false) ->
  Forall2 of_type (g_ins g) ins -> NoDup (names ins) ->
  exists outs val es, carries cl g ins outs val /\ trace g val order es /\
    Permutation (names outs) (names ins) /\
    (forall o d cs ts a, In (Ev o d cs ts a) es -> NoDup (cs ++ ts) /\ forall q, In q (cs ++ ts) -> In q (names ins)) /\
    forall outs' val' es', carries cl g ins outs' val' -> trace g val' order es' ->
      outs' = outs /\ es' = es /\ forall s b, source g s b -> val' s = val s.
Proof. exact C67_one_run_pf. Qed.

(** In another topological order the gates are the same, up to exchanging neighbours which
    have no qubit in common. *)
Theorem C67_any_order : forall (A : Type) (cl : nat -> list A -> nat -> A) g order order' ins outs val es,
  wf g -> topological g order -> topological g order' ->
  (forall k l i o, In (k, Copied l i o) (g_nodes g) -> forall b, In b (i ++ o) -> b = false) ->
  carries cl g ins outs val -> NoDup (names ins) -> trace g val order es ->
  exists es', trace g val order' es' /\ swaps share es es'.
Proof. exact C67_any_order_pf. Qed.

(** ** C68: what the modified region does *)
(** A run of a region gives a run of the modified region: the controls pass through, every
    gate gets them and its own old qubits and angle, the classical operations compute what
    they computed, and under a dagger the order of the gates is reversed and the qubits of the
    k-th quantum input and output are exchanged. *)
Theorem C68_modified_run : forall (A : Type) (cl : nat -> list A -> nat -> A) d g order g' ins outs val es cs ins' outs',
  wf g -> flat g -> topological g order -> (d = true -> reversible_rows (g_ins g) (g_outs g)) ->
  modify_region d (length cs) order g = Some g' ->
  carries cl g ins outs val -> trace g val order es ->
  (if d then exchanged (g_ins g) (g_outs g) ins outs ins' outs' else ins' = ins /\ outs' = outs) ->
  exists order' val', topological g' order' /\
    carries cl g' (map Qb cs ++ ins') (map Qb cs ++ outs') val' /\
    trace g' val' order' (modified_events d cs es).
Proof. exact C68_modified_run_pf. Qed.

(** Every run of a daggered region comes from a run of the region in this way. *)
Theorem C68_every_run : forall (A : Type) (cl : nat -> list A -> nat -> A) g order (ins' : list (value A)),
  wf g -> flat g -> topological g order -> reversible_rows (g_ins g) (g_outs g) ->
  Forall2 of_type (g_ins g) ins' ->
  exists ins outs val es outs', carries cl g ins outs val /\ trace g val order es /\
    exchanged (g_ins g) (g_outs g) ins outs ins' outs' /\ Permutation (names ins) (names ins').
Proof. exact C68_every_run_pf. Qed.

(** ** C69: the meaning of the modified region *)
(** The gates which the code makes for the nodes of the modified region, one after the other,
    are the gates of the region performed when all controls are 1; under a dagger they are the
    two-sided inverse of this.  Excluded are gates whose controlled form is wrong (C24, C25). *)
Theorem C69_meaning : forall (A : Type) (cl : nat -> list A -> nat -> A) (ang : A -> R) (d : bool) g order g' ins outs val es cs ins' outs',
  wf g -> flat g -> topological g order -> (d = true -> reversible_rows (g_ins g) (g_outs g)) ->
  (forall k o d' n', In (k, Gate o d' n') (g_nodes g) -> right_with (length cs) o) ->
  modify_region d (length cs) order g = Some g' ->
  carries cl g ins outs val -> trace g val order es -> NoDup (cs ++ names ins) ->
  (if d then exchanged (g_ins g) (g_outs g) ins outs ins' outs' else ins' = ins /\ outs' = outs) ->
  exists order' val' es' rs, topological g' order' /\
    carries cl g' (map Qb cs ++ ins') (map Qb cs ++ outs') val' /\ trace g' val' order' es' /\
    Forall2 (synthesised ang) es' rs /\ Forall gate_wf (flat_map r_gates rs) /\
    forall psi,
      if d then run (flat_map r_gates rs) (when_all1 cs (run (map (gate_of ang) es)) psi) = psi /\
                when_all1 cs (run (map (gate_of ang) es)) (run (flat_map r_gates rs) psi) = psi
      else run (flat_map r_gates rs) psi = when_all1 cs (run (map (gate_of ang) es)) psi.
Proof. exact C69_meaning_pf. Qed.

(** The meaning of a region of unitary gates, with controls and daggers or without, does not
    depend on the topological order in which its gates are taken. *)
Theorem C69_order_free : forall (A : Type) (cl : nat -> list A -> nat -> A) (ang : A -> R) g order order' ins outs outs' val val' es es',
  wf g -> topological g order -> topological g order' ->
  (forall k l i o, In (k, Copied l i o) (g_nodes g) -> forall b, In b (i ++ o) -> b = false) ->
  (forall k o d n, In (k, Gate (Tk o) d n) (g_nodes g) -> is_quantum o = true) ->
  NoDup (names ins) ->
  carries cl g ins outs val -> trace g val order es ->
  carries cl g ins outs' val' -> trace g val' order' es' ->
  forall psi, events_sem ang es psi = events_sem ang es' psi.
Proof. exact C69_order_free_pf. Qed.

(** ** C70: other operations on qubits (refuted) *)
(** An operation on a qubit which is not from tket's own extensions is copied as it is: with
    controls it is performed whatever they are (they go straight from the input to the output),
    and under a dagger it is not inverted.  No error is given. *)
Theorem C70_other_operations_refuted : forall d n l, exists g g',
  wf g /\ topological g [0] /\ g_nodes g = [(0, Copied l [true] [true])] /\
  modify_region d n [0] g = Some g' /\ g_nodes g' = g_nodes g /\
  (forall i, i < n -> In ((Inp, i), (Outp, i)) (g_edges g')) /\
  In ((Inp, n), (Nd 0, 0)) (g_edges g') /\ In ((Nd 0, 0), (Outp, n)) (g_edges g').
Proof. exact C70_other_operations_refuted_pf. Qed.

(** ** Instances: the hypotheses are met by non-trivial cases *)
(** Two qubits and an angle: the angle is negated, CX, then Rz of the second and H of the
    first qubit, which come out in the other order. *)
Definition ex : graph :=
  {| g_ins := [true; true; false]; g_outs := [true; true];
     g_nodes := [(0, Copied 7 [false] [false]); (1, Gate (Tk CX) false 0); (2, Gate (Tk Rz) false 0); (3, Gate (Tk H) false 0)];
     g_edges := [((Inp, 0), (Nd 1, 0)); ((Inp, 1), (Nd 1, 1)); ((Inp, 2), (Nd 0, 0)); ((Nd 1, 1), (Nd 2, 0));
                 ((Nd 0, 0), (Nd 2, 1)); ((Nd 1, 0), (Nd 3, 0)); ((Nd 3, 0), (Outp, 1)); ((Nd 2, 0), (Outp, 0))] |}.

Lemma ex_wf : wf ex.
Proof.
  constructor.
  - simpl. repeat constructor; simpl; intuition discriminate.
  - intros s t J. simpl in J. unfold source, target.
    repeat (destruct J as [E|J]; [injection E as <- <-; simpl;
      first [exists true; split; solve [reflexivity | eexists; split; [auto 6|reflexivity]]
            |exists false; split; solve [reflexivity | eexists; split; [auto 6|reflexivity]]]|]).
    destruct J.
  - simpl. repeat constructor; simpl; intuition discriminate.
  - intros [[| |k] i] b T; unfold target in T; simpl in T; [tauto| |].
    + destruct i as [|[|[|]]]; try discriminate; simpl; eexists; auto 10.
    + destruct T as (o & J & T).
      repeat (destruct J as [E|J]; [injection E as <- <-; simpl in T;
        destruct i as [|[|[|]]]; try discriminate; simpl; eexists; auto 10|]).
      destruct J.
  - intros [[| |k] i] T; unfold source in T; simpl in T; [|tauto|].
    + destruct i as [|[|[|[|]]]]; try discriminate; simpl; eexists; auto 10.
    + destruct T as (o & J & T).
      repeat (destruct J as [E|J]; [injection E as <- <-; simpl in T;
        destruct i as [|[|[|]]]; try discriminate; simpl; eexists; auto 10|]).
      destruct J.
  - intros s t t' _ J J'. simpl in J, J'.
    repeat (destruct J as [E|J]; [injection E as <- <-;
      repeat (destruct J' as [E'|J']; [first [injection E' as <-; reflexivity | discriminate]|]); destruct J'|]).
    destruct J.
Qed.
Lemma ex_flat : flat ex.
Proof.
  intros k o J. simpl in J.
  repeat (destruct J as [E|J]; [injection E as <- <-; simpl; auto; intros b [<-|[<-|[]]]; auto|]). destruct J.
Qed.
Lemma ex_topological : topological ex [0; 1; 2; 3] /\ topological ex [1; 3; 0; 2].
Proof.
  split; split.
  - apply Permutation_refl.
  - intros a i b j J. simpl in J.
    repeat (destruct J as [E|J]; [try discriminate; injection E as <- <- <- <-|]); try destruct J.
    + exists [0], [], [3]. reflexivity.
    + exists [], [1], [3]. reflexivity.
    + exists [0], [2], []. reflexivity.
  - simpl. apply NoDup_Permutation; [repeat constructor; simpl; intuition discriminate
                                    |repeat constructor; simpl; intuition discriminate|]. simpl. intuition.
  - intros a i b j J. simpl in J.
    repeat (destruct J as [E|J]; [try discriminate; injection E as <- <- <- <-|]); try destruct J.
    + exists [], [3; 0], []. reflexivity.
    + exists [1; 3], [], []. reflexivity.
    + exists [], [], [0; 2]. reflexivity.
Qed.
Lemma ex_rows : reversible_rows (g_ins ex) (g_outs ex).
Proof. right. exists [false]. split; auto. intros b [<-|[]]. auto. Qed.

(** One control and a dagger: the new edges are as expected. *)
Example C66_instance : exists g', modify_region true 1 [0; 1; 2; 3] ex = Some g' /\ wf g' /\
  In ((Inp, 1), (Nd 2, 1)) (g_edges g') /\ In ((Nd 2, 1), (Nd 1, 2)) (g_edges g') /\
  In ((Nd 3, 0), (Nd 2, 0)) (g_edges g') /\ In ((Nd 0, 0), (Nd 2, 2)) (g_edges g') /\
  In ((Inp, 0), (Nd 3, 0)) (g_edges g') /\ In ((Nd 1, 0), (Outp, 0)) (g_edges g').
Proof.
  destruct (C66_well_formed true 1 ex [0; 1; 2; 3] ex_wf ex_flat (proj1 ex_topological) (fun _ => ex_rows)) as (g' & M & W & _).
  exists g'. split; auto. split; auto. vm_compute in M. injection M as <-. simpl. repeat split; auto 20.
Qed.

Example C66_refused_instance :
  modify_region false 1 [0] {| g_ins := [true]; g_outs := [true]; g_nodes := [(0, Gate (Tk Reset) false 0)];
    g_edges := [((Inp, 0), (Nd 0, 0)); ((Nd 0, 0), (Outp, 0))] |} = None /\
  (exists g', modify_region true 2 [0; 1; 2; 3] ex = Some g').
Proof. split; [reflexivity|eexists; vm_compute; reflexivity]. Qed.

(** Its run, with negation of integers as the classical operation, and its modified forms. *)
Definition ex_cl (l : nat) (vs : list BinNums.Z) (j : nat) : BinNums.Z := match vs with [v] => BinInt.Z.opp v | _ => 0%Z end.
Definition ex_ins : list (value BinNums.Z) := [Qb 10; Qb 11; Cl 3%Z].

Lemma ex_typed : Forall2 of_type (g_ins ex) ex_ins.
Proof. repeat constructor. Qed.
Lemma ex_names : NoDup (names ex_ins).
Proof. repeat constructor; simpl; intuition discriminate. Qed.

Definition ex_val (s : node * nat) : value BinNums.Z :=
  match s with
  | (Inp, 0) | (Nd 1, 0) | (Nd 3, 0) => Qb 10
  | (Inp, 1) | (Nd 1, 1) | (Nd 2, 0) => Qb 11
  | (Inp, _) => Cl 3%Z
  | _ => Cl (-3)%Z
  end.
Definition ex_events : list (event BinNums.Z) :=
  [Ev (Tk CX) false [] [10; 11] None; Ev (Tk Rz) false [] [11] (Some (-3)%Z); Ev (Tk H) false [] [10] None].

Ltac edge := simpl; auto 10.
Lemma ex_carries : carries ex_cl ex ex_ins [Qb 11; Qb 10] ex_val.
Proof.
  constructor.
  - intros [[| |k] i] b T; unfold source in T; simpl in T; [|tauto|].
    + destruct i as [|[|[|[|]]]]; simpl in T; try discriminate; simpl; congruence.
    + destruct T as (o & J & T).
      repeat (destruct J as [E|J]; [injection E as <- <-; simpl in T;
        destruct i as [|[|[|i]]]; simpl in T; try discriminate; try (destruct i; discriminate); simpl; congruence|]).
      destruct J.
  - split; auto. intros i x N. destruct i as [|[|[|[|]]]]; simpl in N; try discriminate; injection N as <-; auto.
  - split; auto. intros i x N. destruct i as [|[|[|]]]; simpl in N; try discriminate; injection N as <-;
      [exists (Nd 2, 0)|exists (Nd 3, 0)]; split; edge.
  - intros k o d n J i L. simpl in J.
    repeat (destruct J as [E|J]; [try discriminate; injection E as <- <- <- <-; simpl in L|]); try destruct J.
    + destruct i as [|[|]]; [exists (Inp, 0)|exists (Inp, 1)|lia]; split; edge.
    + destruct i as [|]; [exists (Nd 1, 1)|lia]; split; edge.
    + destruct i as [|]; [exists (Nd 1, 0)|lia]; split; edge.
  - intros k l i0 u0 J. simpl in J. repeat (destruct J as [E|J]; [try discriminate; injection E as <- <- <- <-|]); try destruct J.
    exists [3%Z]. split; auto. split.
    + intros [|[|i]] v N; simpl in N; try discriminate. injection N as <-. exists (Inp, 2). split; edge.
    + intros j L. simpl in L. destruct j as [|]; [|lia]. reflexivity.
Qed.
Lemma ex_trace : trace ex ex_val [0; 1; 2; 3] ex_events.
Proof.
  apply trace_copied with 7 [false] [false]; [edge|]. constructor; [|constructor; [|constructor; [|constructor]]].
  - split; [edge|]. split; auto. split; auto. intros [|[|[|i]]] q N; simpl in N; try discriminate; injection N as <-;
      [exists (Inp, 0)|exists (Inp, 1)]; split; edge.
  - split; [edge|]. split; auto. split; [|split; auto; exists (Nd 0, 0); split; edge].
    intros [|[|i]] q N; simpl in N; try discriminate; injection N as <-. exists (Nd 1, 1). split; edge.
  - split; [edge|]. split; auto. split; auto. intros [|[|i]] q N; simpl in N; try discriminate; injection N as <-.
    exists (Nd 1, 0). split; edge.
Qed.

Example C67_instance : exists es', trace ex ex_val [1; 3; 0; 2] es' /\ swaps share ex_events es' /\
  es' = [Ev (Tk CX) false [] [10; 11] None; Ev (Tk H) false [] [10] None; Ev (Tk Rz) false [] [11] (Some (-3)%Z)].
Proof.
  destruct (C67_any_order BinNums.Z ex_cl ex [0; 1; 2; 3] [1; 3; 0; 2] ex_ins _ ex_val ex_events ex_wf (proj1 ex_topological) (proj2 ex_topological)
    (fun k l i o J => ex_flat k _ J) ex_carries ex_names ex_trace) as (es' & T & Sw).
  exists es'. split; auto. split; auto.
  apply (same_trace ex [1; 3; 0; 2] ex_wf (proj2 ex_topological) BinNums.Z ex_cl _ _ _ _ _ ex_carries ex_carries _ _ _ T).
  constructor; [|constructor; [|apply trace_copied with 7 [false] [false]; [edge|constructor; [|constructor]]]].
  - split; [edge|]. split; auto. split; auto. intros [|[|[|i]]] q N; simpl in N; try discriminate; injection N as <-;
      [exists (Inp, 0)|exists (Inp, 1)]; split; edge.
  - split; [edge|]. split; auto. split; auto. intros [|[|i]] q N; simpl in N; try discriminate; injection N as <-.
    exists (Nd 1, 0). split; edge.
  - split; [edge|]. split; auto. split; [|split; auto; exists (Nd 0, 0); split; edge].
    intros [|[|i]] q N; simpl in N; try discriminate; injection N as <-. exists (Nd 1, 1). split; edge.
Qed.

(** The daggered form with a control: its inputs hold the qubits 11 and 10, and the gates are
    the inverses in the other order. *)
Lemma ex_exchanged : exchanged (g_ins ex) (g_outs ex) ex_ins [Qb 11; Qb 10] [Qb 11; Qb 10; Cl 3%Z] [Qb 10; Qb 11].
Proof.
  split; auto. split; auto. split; [|split].
  - intros [|[|[|[|i]]]] N; simpl in N; try discriminate. auto.
  - intros [|[|[|i]]] N; simpl in N; discriminate.
  - intros i j (t & Q & N & N' & E).
    destruct i as [|[|[|[|i]]]], j as [|[|[|j]]]; simpl in *; try discriminate; try (injection N as <-; discriminate); auto.
Qed.
Example C68_instance : forall g', modify_region true 1 [0; 1; 2; 3] ex = Some g' ->
  exists order' val', topological g' order' /\
    carries ex_cl g' [Qb 20; Qb 11; Qb 10; Cl 3%Z] [Qb 20; Qb 10; Qb 11] val' /\
    trace g' val' order' [Ev (Tk H) true [20] [10] None; Ev (Tk Rz) true [20] [11] (Some (-3)%Z);
                          Ev (Tk CX) true [20] [10; 11] None].
Proof.
  intros g' M.
  apply (C68_modified_run BinNums.Z ex_cl true ex [0; 1; 2; 3] g' ex_ins _ ex_val ex_events [20] _ _ ex_wf ex_flat
    (proj1 ex_topological) (fun _ => ex_rows) M ex_carries ex_trace ex_exchanged).
Qed.

Example C69_instance : exists g' es' rs, modify_region true 1 [0; 1; 2; 3] ex = Some g' /\
  Forall2 (synthesised IZR) es' rs /\
  forall psi, run (flat_map r_gates rs)
    (when_all1 [20] (run [G CX [10; 11] 0; G Rz [11] (-3); G H [10] 0]) psi) = psi.
Proof.
  assert (Ri : forall k o d n, In (k, Gate o d n) (g_nodes ex) -> right_with 1 o).
  { intros k o d n J. simpl in J.
    repeat (destruct J as [E|J]; [try discriminate; injection E as <- <- <- <-; exact Logic.I|]). destruct J. }
  destruct (C66_well_formed true 1 ex [0; 1; 2; 3] ex_wf ex_flat (proj1 ex_topological) (fun _ => ex_rows)) as (g' & M & _).
  assert (Nq : NoDup [20; 10; 11]) by (clear; repeat constructor; simpl; intuition discriminate).
  destruct (C69_meaning BinNums.Z ex_cl IZR true ex [0; 1; 2; 3] g' ex_ins _ ex_val ex_events [20] _ _ ex_wf ex_flat
    (proj1 ex_topological) (fun _ => ex_rows) Ri M ex_carries ex_trace Nq ex_exchanged)
    as (order' & val' & es' & rs & _ & _ & _ & F & _ & R).
  exists g', es', rs. split; [exact M|]. split; [exact F|]. intro psi. destruct (R psi) as [R1 _].
  change [G CX [10; 11] 0; G Rz [11] (-3); G H [10] 0] with (map (gate_of IZR) ex_events). exact R1.
Qed.

Print Assumptions C66_well_formed.
Print Assumptions C66_refused.
Print Assumptions C67_one_run.
Print Assumptions C67_any_order.
Print Assumptions C68_modified_run.
Print Assumptions C68_every_run.
Print Assumptions C69_meaning.
Print Assumptions C69_order_free.
Print Assumptions C70_other_operations_refuted.
