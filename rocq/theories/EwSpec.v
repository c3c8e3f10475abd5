(** Vocabulary for the removal of empty wires. *)
From Coq Require Import List Bool Arith Sorted.
From Verif Require Import PatSpec.
Import ListNotations.

Section Spec.
Variable Op : Type.
Variable ain : Op -> nat.
Notation circuit := (circuit Op).
(** Input [k] is used by no node, and at most once as an output. *)
Definition idle (c : circuit) (k : nat) : Prop :=
  k < c_inputs c /\ (forall x, In x (c_nodes c) -> ~ In (Inp k) (ins ain c x)) /\ count_occ source_eq_dec (c_outs c) (Inp k) <= 1.
(** The values after removal of the inputs [ws]: the other inputs keep their order. *)
Definition renumber (ws : list nat) (w : source) : source :=
  match w with Inp k => Inp (k - length (filter (fun v => Nat.ltb v k) ws)) | Out n j => Out n j end.
Definition removed (ws : list nat) (w : source) : bool := match w with Inp k => existsb (Nat.eqb k) ws | Out _ _ => false end.
(** [d] is [c] without the inputs [ws] and the outputs that come from them. *)
Record without_wires (ws : list nat) (c d : circuit) : Prop := {
  w_inputs : c_inputs d + length ws = c_inputs c;
  w_nodes : c_nodes d = c_nodes c;
  w_src : forall x k, In x (c_nodes c) -> k < ain (snd x) -> c_src d (fst x) k = renumber ws (c_src c (fst x) k);
  w_outs : c_outs d = map (renumber ws) (filter (fun w => negb (removed ws w)) (c_outs c)) }.
(** The elements at the positions that are kept. *)
Fixpoint keep {A} (mask : list bool) (l : list A) : list A :=
  match mask, l with b :: mask, x :: l => if b then x :: keep mask l else keep mask l | _, _ => [] end.
Definition kept_inputs (ws : list nat) (n : nat) : list bool := map (fun k => negb (existsb (Nat.eqb k) ws)) (seq 0 n).
End Spec.
Arguments idle {Op}. Arguments without_wires {Op}. Arguments w_inputs {Op ain ws c d}. Arguments w_nodes {Op ain ws c d}. Arguments w_src {Op ain ws c d}. Arguments w_outs {Op ain ws c d}.
