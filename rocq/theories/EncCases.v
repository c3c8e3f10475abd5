(** Small circuits for the pytket encoder: qubits in basis states, so that every value is a bool. *)
From Coq Require Import List Bool Arith Lia.
From Verif Require Import EncSpec EncModel.
Import ListNotations.

(** [Split] and [Make] stand for unsupported operations: [Split] gives a pair of a qubit and a new one,
    [Make] a new qubit, both new qubits in state one. [Read] stands for read and make_opaque. *)
Inductive gate : Type := Meas | MeasFree | Flip | Cx | AndB | Read | Split | Make.
Definition at0 (l : list bool) : bool := nth 0 l false.
Definition at1 (l : list bool) : bool := nth 1 l false.
Definition grun (g : gate) (q b : list bool) (p : list unit) : list bool * list bool :=
  match g with
  | Meas => ([at0 q], [at0 q])
  | MeasFree => ([], [at0 q])
  | Flip => ([negb (at0 q)], [])
  | Cx => ([at0 q; xorb (at0 q) (at1 q)], [])
  | AndB => ([], [at0 b && at1 b])
  | Read => ([], [at0 b])
  | Split => ([at0 q; true], [])
  | Make => ([true], [])
  end.
Definition gq (g : gate) : nat := match g with Meas | Flip | Make => 1 | Cx | Split => 2 | _ => 0 end.
Definition gb (g : gate) : nat := match g with Meas | MeasFree | AndB | Read => 1 | _ => 0 end.
Definition gparams (g : gate) (l : list unit) : list unit := l.
Definition gopaque (g : gate) : bool := match g with Split | Make => true | _ => false end.
Lemma grun_len : forall g q b p, length (fst (grun g q b p)) = gq g /\ length (snd (grun g q b p)) = gb g.
Proof. intros []; split; reflexivity. Qed.

Definition q1 : count := {| cq := 1; cb := 0; cp := 0 |}.
Definition b1 : count := {| cq := 0; cb := 1; cp := 0 |}.
Notation gnode := (node gate unit).
Notation gcirc := (circuit gate unit).
Definition nd (i : inst gate unit) (a : list nat) (b : list (nat * count)) : gnode := {| what := i; nin := a; nout := b |}.

(** A qubit is measured and freed, and then one is allocated. *)
Definition c_alloc : gcirc := {| inputs := [(0, q1)]; nodes := [nd (IEmit MeasFree) [0] [(1, b1)]; nd IAlloc [] [(2, q1)]]; outputs := [1; 2] |}.
(** A bit is lost, and then there is a constant false. *)
Definition c_const : gcirc := {| inputs := [(0, b1); (1, b1)]; nodes := [nd (IEmit AndB) [0; 1] [(2, b1)]; nd (IConst false) [] [(3, b1)]]; outputs := [2; 3] |}.
(** The first argument of a conjunction is used later. *)
Definition c_shared : gcirc := {| inputs := [(0, b1); (1, b1)]; nodes := [nd (IEmit AndB) [0; 1] [(2, b1)]]; outputs := [2; 0] |}.
(** A bit is read, the result is not used, and a measurement follows. *)
Definition c_alias : gcirc := {| inputs := [(0, b1); (1, q1)]; nodes := [nd (ITransparent Read) [0] [(2, b1)]; nd (IEmit MeasFree) [1] [(3, b1)]]; outputs := [0; 3] |}.
(** The first of two input bits is not used. *)
Definition c_input : gcirc := {| inputs := [(0, b1); (1, b1)]; nodes := []; outputs := [1] |}.
(** A wire of two qubits, one of which is new. *)
Definition c_mixed : gcirc := {| inputs := [(0, q1)]; nodes := [nd (IEmit Split) [0] [(1, {| cq := 2; cb := 0; cp := 0 |})]]; outputs := [1] |}.
(** A gate on a qubit and on the result of an unsupported operation. *)
Definition c_opaque : gcirc := {| inputs := [(0, q1)]; nodes := [nd (IEmit Make) [] [(1, q1)]; nd (IEmit Cx) [0; 1] [(2, q1); (3, q1)]]; outputs := [2; 3] |}.
(** Allocations, gates, measurements, a constant, a conjunction and a transparent operation. *)
Definition c_fine : gcirc :=
  {| inputs := [(0, q1); (1, b1)];
     nodes := [nd IAlloc [] [(2, q1)]; nd (IEmit Cx) [0; 2] [(3, q1); (4, q1)]; nd (IConst false) [] [(5, b1)]; nd (IEmit Meas) [3] [(6, q1); (7, b1)];
               nd (ITransparent Read) [7] [(8, b1)]; nd (IEmit AndB) [8; 1] [(9, b1)]; nd (IEmit MeasFree) [4] [(10, b1)]; nd (IConst true) [] [(11, b1)]; nd IFree [6] []];
     outputs := [9; 10; 5; 11; 1] |}.

(** ** Proving the conditions for such circuits *)
Ltac cuts :=
  repeat match goal with
  | H : [] = ?l ++ _ :: _ |- _ => exfalso; destruct l; discriminate H
  | H : _ :: _ = ?l ++ _ :: _ |- _ => destruct l as [|]; cbn [app] in H; [injection H; clear H; intros; subst|injection H; clear H; intros; subst]
  end.
Ltac ins_ :=
  repeat match goal with
  | H : In _ [] |- _ => destruct H
  | H : In _ (_ :: _) |- _ => destruct H as [H|H]; subst
  | H : _ = _ \/ _ |- _ => destruct H as [H|H]; subst
  | H : (_, _) = (_, _) |- _ => injection H; clear H; intros; subst
  | H : False |- _ => destruct H
  end.
Ltac solve_scoped :=
  split; [repeat constructor; simpl; intuition discriminate|];
  split; [let H := fresh in let J := fresh in intros ? ? ? ? H J; simpl in H; cuts; simpl in J; ins_; simpl; tauto|let J := fresh in intros ? J; simpl in J; ins_; simpl; tauto].
Ltac solve_typed := intros n Hin; simpl in Hin; ins_; simpl; try (split; [reflexivity|eexists; reflexivity]); try reflexivity; try (split; [intros []; reflexivity|reflexivity]); try (split; [intros []; reflexivity|intros es Heq; exact Heq]).
Ltac solve_linear := intros w Hin Hl; simpl in Hin; ins_; vm_compute in Hl |- *; first [reflexivity|exfalso; lia].
Ltac solve_unmixed := intros n o l1 w x l2 k Hin W Heq; simpl in Hin; ins_; simpl in W, Heq; try discriminate W; cuts; destruct k; vm_compute; lia.
Ltac solve_dead := split; [intros w x Hin; simpl in Hin; ins_; vm_compute; lia|intros n o l1 w x l2 Hin W Heq Hn; simpl in Hin; ins_; simpl in W, Heq; try discriminate W; cuts; try congruence; vm_compute; lia].
Ltac solve_unshared := intros n w Hin (l1 & l2 & Heq & Hl & Hk); simpl in Hin; ins_; simpl in Heq; cuts; vm_compute in Hl, Hk |- *; first [reflexivity|exfalso; lia|tauto].
Ltac solve_clean := intros k l1 n l2 m Heq Hn Hin D; simpl in Heq; cuts; simpl in Hin; ins_; destruct k; simpl in Hn; try contradiction; (destruct D as [(w & x & A & B & C)|D]; [simpl in A; ins_; vm_compute in B, C; lia|vm_compute in D; lia]).
