(** Proofs of the properties of the borrow squashing pass (property C21). *)
From Coq Require Import List Bool Arith Lia Permutation.
From Verif Require Import BorrowSpec BorrowModel BorrowGraph BorrowSol BorrowElide BorrowScan BorrowPass.
Import ListNotations.

Lemma C21_array_pf : forall (O T : Type) (T_eqb : T -> T -> bool) (is_array : T -> bool) (elem : T -> T) (ty : wire -> T) (order : entries -> entries),
  (forall t, T_eqb t t = true) -> (forall l, Permutation (order l) l) ->
  forall (recurse : bool) (g : graph O) (start : wire), topological g -> typed is_array elem ty g -> produced g start ->
  exists g' elided candidates,
    traverse O T T_eqb is_array ty order (S (length g)) recurse g start = Some (g', elided, candidates) /\
    topological g' /\ typed is_array elem ty g' /\
    forall (X : Type) (sem : O -> list (val X) -> option (list (val X))), same_behaviour sem g g'.
Proof.
  intros O T T_eqb is_array elem ty order Tr Op recurse g start Tp Ty P.
  destruct (array_ok O T T_eqb is_array elem ty Tr order Op recurse g start (conj Tp Ty) P) as (g' & el & c & E & [Tp' Ty'] & S1 & _).
  exists g', el, c. split; [exact E|]. split; [assumption|]. split; [assumption|]. intros X sem. apply S1.
Qed.

Lemma C21_region_pf : forall (O T : Type) (T_eqb : T -> T -> bool) (is_array : T -> bool) (elem : T -> T) (ty : wire -> T) (order : entries -> entries),
  (forall t, T_eqb t t = true) -> (forall l, Permutation (order l) l) ->
  forall g : graph O, topological g -> typed is_array elem ty g ->
  exists n g' elided,
    (forall fuel, n <= fuel -> squash_region O T T_eqb is_array ty order fuel g = Some (g', elided)) /\
    topological g' /\ typed is_array elem ty g' /\
    forall (X : Type) (sem : O -> list (val X) -> option (list (val X))), same_behaviour sem g g'.
Proof.
  intros O T T_eqb is_array elem ty order Tr Op g Tp Ty.
  destruct (region_ok O T T_eqb is_array elem ty Tr order Op g (conj Tp Ty)) as (n & g' & el & E & [Tp' Ty'] & S1 & _).
  exists n, g', el. split; [exact E|]. split; [assumption|]. split; [assumption|]. intros X sem. apply S1.
Qed.

Lemma C21_elision_pf : forall (O T : Type) (is_array : T -> bool) (elem : T -> T) (ty : wire -> T)
  (g : graph O) start l1 b0 i l2 r l3 b l4, topological g -> typed is_array elem ty g ->
  chain O g start (l1 ++ (b0, i, ABorrow) :: l2 ++ (r, i, AReturn) :: l3 ++ (b, i, ABorrow) :: l4) ->
  ~ In i (map oidx l2) -> ~ In i (map oidx l3) ->
  exists g', elide O g (r, b) = Some g' /\ topological g' /\ typed is_array elem ty g' /\
    chain O g' start (l1 ++ (b0, i, ABorrow) :: l2 ++ l3 ++ l4) /\
    forall (X : Type) (sem : O -> list (val X) -> option (list (val X))), same_behaviour sem g g'.
Proof.
  intros O T is_array elem ty g start l1 b0 i l2 r l3 b l4 Tp Ty C N2 N3.
  destruct (elide_ok O T is_array elem ty g start l1 b0 i l2 r l3 b l4 (conj Tp Ty) C N2 N3) as (g' & E & [Tp' Ty'] & C' & S1 & _).
  exists g'. auto 10.
Qed.

Lemma C21_idempotent_refuted_pf : ~ (forall (O T : Type) (T_eqb : T -> T -> bool) (is_array : T -> bool) (elem : T -> T) (ty : wire -> T) (order : entries -> entries),
  (forall t, T_eqb t t = true) -> (forall l, Permutation (order l) l) ->
  forall (g : graph O) fuel g1 el1 g2 el2, topological g -> typed is_array elem ty g ->
  squash_region O T T_eqb is_array ty order fuel g = Some (g1, el1) ->
  squash_region O T T_eqb is_array ty order fuel g1 = Some (g2, el2) -> el2 = []).
Proof.
  intro H.
  set (N := fun i k l => {| nid := i; knd := k; ins := l |} : node nat).
  set (g := [ N 0 (KOther 0 2) []; N 1 (KOther 1 1) [(0, 1)]; N 2 (KOther 1 1) [(1, 0)]; N 3 (KConst 0) [];
    N 4 KBorrow [(2, 0); (3, 0)]; N 5 (KOther 2 1) [(4, 1); (0, 0)]; N 6 KBorrow [(5, 0); (3, 0)]; N 7 KReturn [(6, 0); (3, 0); (6, 1)];
    N 8 KReturn [(4, 0); (3, 0); (7, 0)]; N 9 KBorrow [(8, 0); (3, 0)]; N 10 KBorrow [(9, 1); (3, 0)]; N 11 KReturn [(10, 0); (3, 0); (10, 1)];
    N 12 KReturn [(9, 0); (3, 0); (11, 0)]; N 13 (KOther 9 0) [(12, 0)] ]).
  set (ty := fun w : wire => match w with
     | (2, 0) | (4, 0) | (8, 0) | (9, 0) | (12, 0) => 2
     | (4, 1) | (5, 0) | (6, 0) | (7, 0) | (9, 1) | (10, 0) | (11, 0) => 1
     | _ => 0 end).
  set (arr := fun t => Nat.ltb 0 t).
  specialize (H nat nat Nat.eqb arr pred ty (fun l => l) Nat.eqb_refl (fun l => Permutation_refl l) g 60).
  destruct (squash_region nat nat Nat.eqb arr ty (fun l => l) 60 g) as [[g1 el1]|] eqn:E1; [|vm_compute in E1; discriminate].
  destruct (squash_region nat nat Nat.eqb arr ty (fun l => l) 60 g1) as [[g2 el2]|] eqn:E2.
  - assert (Q : el2 = [(7, 10)]). { vm_compute in E1. injection E1 as <- _. vm_compute in E2. injection E2 as _ <-. reflexivity. }
    specialize (H g1 el1 g2 el2). rewrite Q in H. 
    assert (K : [(7, 10)] = @nil (nat * nat)); [|discriminate]. apply H; [| |reflexivity|exact (eq_trans E2 (f_equal (fun x => Some (g2, x)) Q))].
    + apply topological_ranked. split.
      * repeat constructor; simpl; intuition discriminate.
      * intros m w Hm Hw. unfold g in Hm. simpl in Hm.
        repeat (destruct Hm as [<-|Hm]; [simpl in Hw; repeat (destruct Hw as [<-|Hw]; [split; [match goal with |- produced _ ?v => exists (nth (fst v) g (N 0 KBorrow [])) end; split; [apply nth_In; simpl; lia|split; [reflexivity|simpl; lia]]|simpl; lia]|]); contradiction|]). contradiction.
    + split.
      * intros w (m & Hm & Em & Lm) A. destruct w as [n p]. simpl in Em, Lm. subst n. unfold g in Hm. simpl in Hm.
        repeat (destruct Hm as [<-|Hm]; [simpl in Lm, A; destruct p as [|[|p]]; try lia; try discriminate A; reflexivity|]). contradiction.
      * intros m Hm. unfold g in Hm. simpl in Hm.
        repeat (destruct Hm as [<-|Hm]; [simpl; first [exact I|split; reflexivity|do 2 eexists; split; [reflexivity|]; repeat split; reflexivity|do 3 eexists; split; [reflexivity|]; repeat split; reflexivity]|]). contradiction.
  - vm_compute in E1. injection E1 as <- _. vm_compute in E2. discriminate.
Qed.

