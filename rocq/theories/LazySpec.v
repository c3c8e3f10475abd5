(** Vocabulary for the claims about lazy measurements (C45). *)

From Coq Require Import List Arith Bool.
From Verif Require Import LazyModel.
Import ListNotations.

(** The boolean a replaced wire stands for. *)
Definition stands_for (fs : futures) (w : sumv) (b : bool) : Prop :=
  match w with
  | Now b' => b' = b
  | Later h => exists alive, nth_error fs h = Some (b, alive)
  end.

(** A handle that can still be consumed. *)
Definition alive (fs : futures) (h : nat) : Prop := exists b, nth_error fs h = Some (b, true).

(** The handles among some wires. *)
Definition handles (ws : list sumv) : list nat :=
  flat_map (fun w => match w with Later h => [h] | Now _ => [] end) ws.

(** The wires hold every handle that can still be consumed, each once. *)
Definition owns (fs : futures) (ws : list sumv) : Prop :=
  NoDup (handles ws) /\ forall h, In h (handles ws) <-> alive fs h.

(** Every [tket.bool] operand is made earlier. *)
Fixpoint scoped {Q} (next : nat) (p : list (instr Q)) (outs : list nat) : Prop :=
  match p with
  | [] => Forall (fun x => x < next) outs
  | i :: p' =>
      match i with
      | IRead x => x < next /\ scoped next p' outs
      | IBin _ x y => x < next /\ y < next /\ scoped (S next) p' outs
      | INot x => x < next /\ scoped (S next) p' outs
      | ILoad _ | IMakeOpaque _ | IMeasure _ | IMeasureReset _ => scoped (S next) p' outs
      | INative _ _ | IQuant _ _ => scoped next p' outs
      end
  end.
