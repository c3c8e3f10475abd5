(** Proofs of the properties of the circuit hash (properties C20 and C48). *)
From Coq Require Import List Bool Arith Lia Permutation.
From Verif Require Import TopoSpec TopoModel TopoProofs HashSpec HashModel HashProofs HashThm.
Import ListNotations.

Lemma C20_invariant_pf : forall (Op H : Type) (is_dfg : Op -> bool) (mix : list (H + Op) -> H) (lhash : option H -> nat -> nat -> H) (xor : H -> H -> H) (zero : H),
  (forall a b, xor a b = xor b a) -> (forall a b c, xor a (xor b c) = xor (xor a b) c) ->
  forall walk1 walk2 : list (node Op) -> option (list nat),
  (forall ks, NoDup (map nid ks) -> exists l, walk1 ks = Some l /\ walk_of (map nid ks) (region_preds ks) l) ->
  (forall ks, NoDup (map nid ks) -> exists l, walk2 ks = Some l /\ walk_of (map nid ks) (region_preds ks) l) ->
  forall f, (forall x y : nat, f x = f y -> x = y) -> forall n n', well_numbered n -> renumbered f n n' ->
  forall h, circuit_hash Op H is_dfg mix lhash xor zero walk1 n = Ok h <-> circuit_hash Op H is_dfg mix lhash xor zero walk2 n' = Ok h.
Proof.
  intros Op H is_dfg mix lhash xor zero Xc Xa walk1 walk2 W1 W2 f Fi n n' W R h. apply (renumber_ok Op H is_dfg mix lhash xor zero f Fi Xc Xa walk1 walk2 W1 W2 n n' W R).
Qed.

Lemma C20_topo_pf : forall (Op : Type) (ks : list (node Op)), NoDup (map nid ks) ->
  exists l, topo_walk Op ks = Some l /\ walk_of (map nid ks) (region_preds ks) l /\ forall n, In n l <-> grounded (map nid ks) (region_preds ks) n.
Proof.
  intros Op ks N. destruct (topo_walk_ok Op ks N) as (l & E & W). exists l. split; [assumption|]. split; [assumption|]. apply walk_iff. assumption.
Qed.

Lemma C20_total_pf : forall (Op H : Type) (is_dfg : Op -> bool) (mix : list (H + Op) -> H) (lhash : option H -> nat -> nat -> H) (xor : H -> H -> H) (zero : H),
  forall walk : list (node Op) -> option (list nat),
  (forall ks, NoDup (map nid ks) -> exists l, walk ks = Some l /\ walk_of (map nid ks) (region_preds ks) l) ->
  forall n, well_numbered n -> ((exists h, circuit_hash Op H is_dfg mix lhash xor zero walk n = Ok h) <-> hashable is_dfg n).
Proof.
  intros Op H is_dfg mix lhash xor zero walk W n Wn. apply hashable_iff; assumption.
Qed.

Lemma C20_faithful_pf : forall (Op H : Type) (is_dfg : Op -> bool) (mix : list (H + Op) -> H) (lhash : option H -> nat -> nat -> H) (xor : H -> H -> H) (zero : H),
  (forall a b, mix a = mix b -> a = b) -> (forall a p q a' p' q', lhash a p q = lhash a' p' q' -> a = a' /\ p = p' /\ q = q') -> (forall a, xor a zero = a) ->
  forall walk : list (node Op) -> option (list nat),
  (forall ks, NoDup (map nid ks) -> exists l, walk ks = Some l /\ walk_of (map nid ks) (region_preds ks) l) ->
  forall n n' h, well_numbered n -> well_numbered n' -> single_links n -> single_links n' ->
  circuit_hash Op H is_dfg mix lhash xor zero walk n = Ok h -> circuit_hash Op H is_dfg mix lhash xor zero walk n' = Ok h -> same_region (kids n) (kids n').
Proof.
  intros Op H is_dfg mix lhash xor zero Mi Li Xz walk W n n' h. apply (faithful Op H is_dfg mix lhash xor zero Mi Li Xz walk W).
Qed.

Lemma C48_dead_refuted_pf : forall (Op H : Type) (is_dfg : Op -> bool) (mix : list (H + Op) -> H) (lhash : option H -> nat -> nat -> H) (xor : H -> H -> H) (zero : H)
  (dfg inp out alloc free : Op), is_dfg dfg = true -> forall o1 o2 : Op, ~ In o1 [dfg; inp; out; alloc; free; o2] ->
  exists n n' h, well_numbered n /\ well_numbered n' /\ circuit_hash Op H is_dfg mix lhash xor zero (topo_walk Op) n = Ok h /\
    circuit_hash Op H is_dfg mix lhash xor zero (topo_walk Op) n' = Ok h /\ In o1 (ops n) /\ ~ In o1 (ops n').
Proof.
  intros Op H is_dfg mix lhash xor zero dfg inp out alloc free D o1 o2 N.
  set (g := fun o => Node 0 dfg [] [Node 1 inp [] []; Node 2 out [[(1, 0)]] []; Node 3 alloc [] []; Node 4 o [[(3, 0)]] []; Node 5 free [[(4, 0)]] []]).
  exists (g o1), (g o2). eexists.
  assert (W : forall o, well_numbered (g o)).
  { intro o. constructor; [repeat constructor; simpl; intuition discriminate|]. repeat constructor. }
  split; [apply W|]. split; [apply W|]. split; [unfold g; simpl; rewrite D; reflexivity|]. split; [unfold g; simpl; rewrite D; reflexivity|]. split; [simpl; tauto|]. simpl in *. intuition.
Qed.

Lemma C48_outside_refuted_pf : forall (Op H : Type) (is_dfg : Op -> bool) (mix : list (H + Op) -> H) (lhash : option H -> nat -> nat -> H) (xor : H -> H -> H) (zero : H)
  (dfg modul inp out call fun1 fun2 : Op), is_dfg dfg = true -> fun1 <> fun2 ->
  exists module n n' h, nop module = modul /\ well_numbered module /\ kids module = [n; n'] ++ [Node 3 fun1 [] []; Node 4 fun2 [] []] /\
    (exists a b, n = Node 1 dfg [] [a; b; Node 7 call [[(5, 0)]; [(3, 0)]] []]) /\ (exists a b, n' = Node 2 dfg [] [a; b; Node 10 call [[(8, 0)]; [(4, 0)]] []]) /\
    circuit_hash Op H is_dfg mix lhash xor zero (topo_walk Op) n = Ok h /\ circuit_hash Op H is_dfg mix lhash xor zero (topo_walk Op) n' = Ok h.
Proof.
  intros Op H is_dfg mix lhash xor zero dfg modul inp out call fun1 fun2 D F.
  set (n := Node 1 dfg [] [Node 5 inp [] []; Node 6 out [[(7, 0)]] []; Node 7 call [[(5, 0)]; [(3, 0)]] []]).
  set (n' := Node 2 dfg [] [Node 8 inp [] []; Node 9 out [[(10, 0)]] []; Node 10 call [[(8, 0)]; [(4, 0)]] []]).
  exists (Node 0 modul [] ([n; n'] ++ [Node 3 fun1 [] []; Node 4 fun2 [] []])), n, n'. eexists. split; [reflexivity|].
  split; [constructor; [repeat constructor; simpl; intuition discriminate|]; repeat constructor; simpl; intuition discriminate|]. split; [reflexivity|].
  split; [eexists; eexists; reflexivity|]. split; [eexists; eexists; reflexivity|].
  split; unfold n, n'; simpl; rewrite D; reflexivity.
Qed.

Lemma C48_xor_refuted_pf : forall (Op H : Type) (is_dfg : Op -> bool) (mix : list (H + Op) -> H) (lhash : option H -> nat -> nat -> H) (xor : H -> H -> H) (zero : H)
  (dfg inp out effect : Op), is_dfg dfg = true -> (forall a, xor a zero = a) -> (forall a, xor a a = zero) -> ~ In effect [dfg; inp; out] ->
  exists n n' h, well_numbered n /\ well_numbered n' /\ circuit_hash Op H is_dfg mix lhash xor zero (topo_walk Op) n = Ok h /\
    circuit_hash Op H is_dfg mix lhash xor zero (topo_walk Op) n' = Ok h /\ ~ In effect (ops n) /\
    exists a b c d, kids n' = [a; b; c; d] /\ nop c = effect /\ nop d = effect /\ In c (kids n') /\ links b = [[(nid c, 0); (nid d, 0)]].
Proof.
  intros Op H is_dfg mix lhash xor zero dfg inp out effect D Xz Xx N.
  set (n := Node 0 dfg [] [Node 1 inp [] []; Node 2 out [[]] []]).
  set (n' := Node 0 dfg [] [Node 1 inp [] []; Node 2 out [[(3, 0); (4, 0)]] []; Node 3 effect [] []; Node 4 effect [] []]).
  exists n, n'. eexists. split; [constructor; [repeat constructor; simpl; intuition discriminate|repeat constructor]|]. split; [constructor; [repeat constructor; simpl; intuition discriminate|repeat constructor]|].
  split; [unfold n; simpl; rewrite D; reflexivity|]. split; [unfold n'; simpl; rewrite D; unfold hash_input; simpl; rewrite Xz, Xx; reflexivity|].
  split; [simpl in *; intuition|]. do 4 eexists. split; [reflexivity|]. simpl. auto 10.
Qed.

