(** Circuits as nested graphs, and when two of them are the same circuit. *)
From Coq Require Import List Arith Bool Permutation.
From Verif Require Import TopoSpec.
Import ListNotations.

Section Circuits.
Variable Op : Type.
(** A node: number, operation, for each input port the linked (node, output port) pairs, and the
    children. A dataflow region is the list of children; the first two are its input and output. *)
Inductive node : Type := Node (nid : nat) (nop : Op) (links : list (list (nat * nat))) (kids : list node).
Definition nid (n : node) : nat := match n with Node i _ _ _ => i end.
Definition nop (n : node) : Op := match n with Node _ o _ _ => o end.
Definition links (n : node) : list (list (nat * nat)) := match n with Node _ _ l _ => l end.
Definition kids (n : node) : list node := match n with Node _ _ _ k => k end.
(** Numbers are not shared between siblings. *)
Inductive well_numbered : node -> Prop :=
  | WN : forall i o l ks, NoDup (map nid ks) -> Forall well_numbered ks -> well_numbered (Node i o l ks).
(** The same circuit with other node numbers [f], other orders of siblings (keeping the input and
    output first) and other orders of the links of a port. *)
Inductive renumbered (f : nat -> nat) : node -> node -> Prop :=
  | Renumbered : forall i o ls ks ls' ks2 ks',
      Forall2 (fun a b => Permutation (map (fun l => (f (fst l), snd l)) a) b) ls ls' ->
      Forall2 (renumbered f) ks ks2 -> firstn 2 ks2 = firstn 2 ks' -> Permutation ks2 ks' ->
      renumbered f (Node i o ls ks) (Node (f i) o ls' ks').

(** Two nodes of two regions compute the same: same operation, and each input port is fed by the same
    port of nodes that compute the same. Nodes outside of the regions all count as the same. *)
Inductive same_dag : list node -> nat -> list node -> nat -> Prop :=
  | SameDag : forall r r' n n', In n r -> In n' r' -> nop n = nop n' ->
      Forall2 (Forall2 (fun l l' => snd l = snd l' /\
         (In (fst l) (map nid r) /\ In (fst l') (map nid r') /\ same_dag r (fst l) r' (fst l') \/
          ~ In (fst l) (map nid r) /\ ~ In (fst l') (map nid r')))) (links n) (links n') ->
      (kids n = [] /\ kids n' = [] \/ same_region (kids n) (kids n')) ->
      same_dag r (nid n) r' (nid n')
with same_region : list node -> list node -> Prop :=
  | SameRegion : forall i o r i' o' r', same_dag (i :: o :: r) (nid o) (i' :: o' :: r') (nid o') -> same_region (i :: o :: r) (i' :: o' :: r').
(** All operations of a circuit. *)
Fixpoint ops (n : node) : list Op := match n with Node _ o _ ks => o :: flat_map ops ks end.
(** Every input port has exactly one link. *)
Inductive single_links : node -> Prop :=
  | SL : forall i o l ks, Forall (fun p => length p = 1) l -> Forall single_links ks -> single_links (Node i o l ks).
(** The graph of a region: for each node the siblings that feed it. *)
Definition region_preds (ks : list node) (n : nat) : list nat :=
  match find (fun k => Nat.eqb (nid k) n) ks with
  | Some k => filter (fun p => existsb (Nat.eqb p) (map nid ks)) (map fst (concat (links k)))
  | None => []
  end.
(** There is a hash: dataflow parents all the way down (where visited), outputs not after a cycle. *)
Section Hashable.
Variable is_dfg : Op -> bool.
Inductive hashable : node -> Prop :=
  | Hashable : forall i o l a out r, is_dfg o = true -> grounded (map nid (a :: out :: r)) (region_preds (a :: out :: r)) (nid out) ->
      (forall k, In k (a :: out :: r) -> grounded (map nid (a :: out :: r)) (region_preds (a :: out :: r)) (nid k) -> kids k <> [] -> hashable k) ->
      hashable (Node i o l (a :: out :: r)).
End Hashable.
End Circuits.
Arguments Node {Op}. Arguments nid {Op}. Arguments nop {Op}. Arguments links {Op}. Arguments kids {Op}.
Arguments well_numbered {Op}. Arguments renumbered {Op}. Arguments same_dag {Op}. Arguments same_region {Op}. Arguments ops {Op}. Arguments single_links {Op}. Arguments region_preds {Op}. Arguments hashable {Op}.
