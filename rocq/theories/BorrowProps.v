(** Properties of the borrow squashing pass (property C21). *)
From Coq Require Import List Bool Arith Lia Permutation.
From Verif Require Import BorrowSpec BorrowModel BorrowGraph BorrowSol BorrowElide BorrowScan BorrowPass BorrowMain.
Import ListNotations.

(** ** C21: squashing one array, from any wire of a well-formed region, never panics, keeps the region
    well-formed, and keeps what the region does: for every meaning of the other operations, it panics
    iff it panicked before, all other operations get the same inputs and all element wires carry the
    same values. [order]: the iteration order of the hash map. *)
Theorem C21_array : forall (O T : Type) (T_eqb : T -> T -> bool) (is_array : T -> bool) (elem : T -> T) (ty : wire -> T) (order : entries -> entries),
  (forall t, T_eqb t t = true) -> (forall l, Permutation (order l) l) ->
  forall (recurse : bool) (g : graph O) (start : wire), topological g -> typed is_array elem ty g -> produced g start ->
  exists g' elided candidates,
    traverse O T T_eqb is_array ty order (S (length g)) recurse g start = Some (g', elided, candidates) /\
    topological g' /\ typed is_array elem ty g' /\
    forall (X : Type) (sem : O -> list (val X) -> option (list (val X))), same_behaviour sem g g'.
Proof. exact C21_array_pf. Qed.

(** ** C21: the whole pass on a region terminates without panicking, with the same guarantee. *)
Theorem C21_region : forall (O T : Type) (T_eqb : T -> T -> bool) (is_array : T -> bool) (elem : T -> T) (ty : wire -> T) (order : entries -> entries),
  (forall t, T_eqb t t = true) -> (forall l, Permutation (order l) l) ->
  forall g : graph O, topological g -> typed is_array elem ty g ->
  exists n g' elided,
    (forall fuel, n <= fuel -> squash_region O T T_eqb is_array ty order fuel g = Some (g', elided)) /\
    topological g' /\ typed is_array elem ty g' /\
    forall (X : Type) (sem : O -> list (val X) -> option (list (val X))), same_behaviour sem g g'.
Proof. exact C21_region_pf. Qed.

(** ** C21: one elision, on the sequence of operations along an array: a borrow, a later return of the same
    constant index and a later borrow of that index, without others of that index in between. *)
Theorem C21_elision : forall (O T : Type) (is_array : T -> bool) (elem : T -> T) (ty : wire -> T)
  (g : graph O) start l1 b0 i l2 r l3 b l4, topological g -> typed is_array elem ty g ->
  chain O g start (l1 ++ (b0, i, ABorrow) :: l2 ++ (r, i, AReturn) :: l3 ++ (b, i, ABorrow) :: l4) ->
  ~ In i (map oidx l2) -> ~ In i (map oidx l3) ->
  exists g', elide O g (r, b) = Some g' /\ topological g' /\ typed is_array elem ty g' /\
    chain O g' start (l1 ++ (b0, i, ABorrow) :: l2 ++ l3 ++ l4) /\
    forall (X : Type) (sem : O -> list (val X) -> option (list (val X))), same_behaviour sem g g'.
Proof. exact C21_elision_pf. Qed.

(** ** C21: running the pass again may elide more: the pass is not idempotent. *)
Theorem C21_idempotent_refuted : ~ (forall (O T : Type) (T_eqb : T -> T -> bool) (is_array : T -> bool) (elem : T -> T) (ty : wire -> T) (order : entries -> entries),
  (forall t, T_eqb t t = true) -> (forall l, Permutation (order l) l) ->
  forall (g : graph O) fuel g1 el1 g2 el2, topological g -> typed is_array elem ty g ->
  squash_region O T T_eqb is_array ty order fuel g = Some (g1, el1) ->
  squash_region O T T_eqb is_array ty order fuel g1 = Some (g2, el2) -> el2 = []).
Proof. exact C21_idempotent_refuted_pf. Qed.

(** ** Instances: an array of qubits, a gate between a borrow and a return of the same index, twice *)
Definition ex_node (i : nat) (k : kind nat) (l : list wire) : node nat := {| nid := i; knd := k; ins := l |}.
Definition ex_g : graph nat :=
  [ ex_node 0 (KOther 0 1) []; ex_node 1 (KConst 0) []; ex_node 2 KBorrow [(0, 0); (1, 0)]; ex_node 3 (KOther 5 1) [(2, 1)];
    ex_node 4 KReturn [(2, 0); (1, 0); (3, 0)]; ex_node 5 KBorrow [(4, 0); (1, 0)]; ex_node 6 (KOther 5 1) [(5, 1)];
    ex_node 7 KReturn [(5, 0); (1, 0); (6, 0)]; ex_node 8 (KOther 9 0) [(7, 0)] ].
Definition ex_ty (w : wire) : nat := match w with (0, 0) | (2, 0) | (4, 0) | (5, 0) | (7, 0) => 1 | _ => 0 end.
Definition ex_arr (t : nat) : bool := Nat.ltb 0 t.
Example ex_topological : topological ex_g.
Proof.
  apply topological_ranked. split.
  - repeat constructor; simpl; intuition discriminate.
  - intros m w Hm Hw. simpl in Hm.
    repeat (destruct Hm as [<-|Hm]; [simpl in Hw; repeat (destruct Hw as [<-|Hw]; [split; [match goal with |- produced _ ?v => exists (nth (fst v) ex_g (ex_node 0 KBorrow [])) end; split; [apply nth_In; simpl; lia|split; [reflexivity|simpl; lia]]|simpl; lia]|]); contradiction|]). contradiction.
Qed.
Example ex_typed : typed ex_arr pred ex_ty ex_g.
Proof.
  split.
  - intros w (m & Hm & Em & Lm) A. destruct w as [n p]. simpl in Em, Lm. subst n. simpl in Hm.
    repeat (destruct Hm as [<-|Hm]; [simpl in Lm, A; destruct p as [|[|p]]; try lia; try discriminate A; reflexivity|]). contradiction.
  - intros m Hm. simpl in Hm.
    repeat (destruct Hm as [<-|Hm]; [simpl; first [exact I|split; reflexivity|do 2 eexists; split; [reflexivity|]; repeat split; reflexivity|do 3 eexists; split; [reflexivity|]; repeat split; reflexivity]|]). contradiction.
Qed.
(** The return and the second borrow go away, and the second gate reads the first. *)
Example ex_squashed : squash_region nat nat Nat.eqb ex_arr ex_ty (fun l => l) 20 ex_g =
  Some ([ ex_node 0 (KOther 0 1) []; ex_node 1 (KConst 0) []; ex_node 2 KBorrow [(0, 0); (1, 0)]; ex_node 3 (KOther 5 1) [(2, 1)];
          ex_node 6 (KOther 5 1) [(3, 0)]; ex_node 7 KReturn [(2, 0); (1, 0); (6, 0)]; ex_node 8 (KOther 9 0) [(7, 0)] ], [(4, 5)]).
Proof. vm_compute. reflexivity. Qed.
Example ex_C21 : exists n g' el, (forall fuel, n <= fuel -> squash_region nat nat Nat.eqb ex_arr ex_ty (fun l => l) fuel ex_g = Some (g', el)) /\
  topological g' /\ typed ex_arr pred ex_ty g' /\ forall (X : Type) sem, same_behaviour (X := X) sem ex_g g'.
Proof. exact (C21_region nat nat Nat.eqb ex_arr pred ex_ty (fun l => l) Nat.eqb_refl (@Permutation_refl _) ex_g ex_topological ex_typed). Qed.
(** With gates that count: the region runs, and gives the array with both gates applied; if the cell is
    already borrowed it panics. *)
Definition ex_sem (cell : option (val nat)) (o : nat) (vs : list (val nat)) : option (list (val nat)) :=
  match o, vs with 0, [] => Some [VA [cell]] | 5, [VX x] => Some [VX (x + 1)] | 9, [_] => Some [] | _, _ => None end.
Example ex_runs : match run_region (ex_sem (Some (VX 7))) ex_g with Some e => e (7, 0) = Some (VA [Some (VX 9)]) | None => False end.
Proof. vm_compute. reflexivity. Qed.
Example ex_panics : run_region (ex_sem None) ex_g = None.
Proof. vm_compute. reflexivity. Qed.
Example ex_elision : exists g', elide nat ex_g (4, 5) = Some g' /\ topological g' /\ typed ex_arr pred ex_ty g' /\
  chain nat g' (0, 0) ([] ++ (2, 0, ABorrow) :: [] ++ [] ++ [(7, 0, AReturn)]) /\ forall (X : Type) sem, same_behaviour (X := X) sem ex_g g'.
Proof.
  apply (C21_elision nat nat ex_arr pred ex_ty ex_g (0, 0) [] 2 0 [] 4 [] 5 [(7, 0, AReturn)] ex_topological ex_typed); [|intros []|intros []].
  assert (K : In (ex_node 1 (KConst 0) []) ex_g) by (simpl; tauto).
  split; [exists (ex_node 2 KBorrow [(0, 0); (1, 0)]), (1, 0), []; simpl; repeat (split; [tauto|]); eexists; split; [exact K|split; reflexivity]|].
  split; [exists (ex_node 4 KReturn [(2, 0); (1, 0); (3, 0)]), (1, 0), [(3, 0)]; simpl; repeat (split; [tauto|]); eexists; split; [exact K|split; reflexivity]|].
  split; [exists (ex_node 5 KBorrow [(4, 0); (1, 0)]), (1, 0), []; simpl; repeat (split; [tauto|]); eexists; split; [exact K|split; reflexivity]|].
  split; [exists (ex_node 7 KReturn [(5, 0); (1, 0); (6, 0)]), (1, 0), [(6, 0)]; simpl; repeat (split; [tauto|]); eexists; split; [exact K|split; reflexivity]|]. exact I.
Qed.

Print Assumptions C21_array.
Print Assumptions C21_region.
Print Assumptions C21_elision.
Print Assumptions C21_idempotent_refuted.
