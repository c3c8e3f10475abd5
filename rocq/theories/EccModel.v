(** Model of equivalence classes of circuits (tket/src/optimiser/badger/eq_circ_class.rs) and of
    the rule tables of the ECC rewriter (tket/src/rewrite/ecc_rewriter.rs). Circuits and patterns
    are abstract; [pattern_of] is the removal of empty wires followed by
    CircuitPattern::try_from_circuit, [None] when that fails. *)
From Coq Require Import List Bool Arith.
Import ListNotations.

Section Ecc.
Variables (circ pat : Type).
Variable num_operations : circ -> nat.
Variable pattern_of : circ -> option pat.
Variable empty_wires : circ -> list nat.

(** eq_circ_class.rs:22-33. *)
Record eqclass : Type := { rep_circ : circ; other_circs : list circ }.
(** eq_circ_class.rs:53-68, circuits / into_circuits / n_circuits. *)
Definition circuits (e : eqclass) : list circ := rep_circ e :: other_circs e.
Definition n_circuits (e : eqclass) : nat := length (other_circs e) + 1.

(** Itertools::position_min_by_key: the first position of a minimal key. *)
Fixpoint position_min (l : list nat) : option nat :=
  match l with
  | [] => None
  | x :: r =>
      match position_min r with
      | None => Some 0
      | Some i => if Nat.leb x (nth i r 0) then Some 0 else Some (S i)
      end
  end.
(** Vec::swap_remove: the removed element is replaced by the last. *)
Definition swap_remove {A : Type} (i : nat) (l : list A) : option (A * list A) :=
  match nth_error l i, rev l with
  | Some x, last :: front =>
      Some (x, if Nat.eqb (S i) (length l) then rev front
               else firstn i (rev front) ++ last :: skipn (S i) (rev front))
  | _, _ => None
  end.
(** eq_circ_class.rs:74-91, from_circuits; [None] is Err(NoRepresentative). *)
Definition from_circuits (l : list circ) : option eqclass :=
  match position_min (map num_operations l) with
  | None => None
  | Some i =>
      match swap_remove i l with
      | Some (r, others) => Some {| rep_circ := r; other_circs := others |}
      | None => None
      end
  end.

(** ecc_rewriter.rs:232-237, into_targets. *)
Definition into_targets (es : list eqclass) : list circ := flat_map circuits es.

(** ecc_rewriter.rs:239-257, get_rewrite_rules. The code fills a preallocated table class by
    class; the rows of one class are consecutive, so the table is the concatenation. *)
Fixpoint rules_from (curr_target : nat) (es : list eqclass) : list (list nat) :=
  match es with
  | [] => []
  | e :: rest =>
      let other_inds := seq (curr_target + 1) (n_circuits e - 1) in
      (other_inds :: map (fun _ => [curr_target]) other_inds)
        ++ rules_from (curr_target + n_circuits e) rest
  end.
Definition get_rewrite_rules (es : list eqclass) : list (list nat) := rules_from 0 es.

(** ecc_rewriter.rs:259-275, get_patterns. *)
Definition get_patterns (es : list eqclass) : list (option (pat * list nat)) :=
  map (fun c => match pattern_of c with Some p => Some (p, empty_wires c) | None => None end)
      (into_targets es).

Definition subset (a b : list nat) : bool := forallb (fun x => existsb (Nat.eqb x) b) a.

(** ecc_rewriter.rs:85-118, from_eccs: the rows whose pattern is valid; each with its pattern,
    removed wires and targets. [None]: an index out of range. *)
Fixpoint filter_targets (targets : list circ) (pew : list nat) (r : list nat) : option (list nat) :=
  match r with
  | [] => Some []
  | id :: r =>
      match nth_error targets id, filter_targets targets pew r with
      | Some t, Some r => Some (if subset pew (empty_wires t) then id :: r else r)
      | _, _ => None
      end
  end.
Fixpoint filter_rows (targets : list circ) (rows : list (option (pat * list nat) * list nat))
    : option (list (pat * list nat * list nat)) :=
  match rows with
  | [] => Some []
  | (None, _) :: rows => filter_rows targets rows
  | (Some (p, pew), r) :: rows =>
      match filter_targets targets pew r, filter_rows targets rows with
      | Some r, Some rows => Some ((p, pew, r) :: rows)
      | _, _ => None
      end
  end.
Record rewriter : Type := { rows : list (pat * list nat * list nat); targets : list circ }.
Definition from_eccs (es : list eqclass) : option rewriter :=
  match filter_rows (into_targets es) (combine (get_patterns es) (get_rewrite_rules es)) with
  | Some rs => Some {| rows := rs; targets := into_targets es |}
  | None => None
  end.

(** ecc_rewriter.rs:121-125, get_targets. *)
Definition get_targets (w : rewriter) (pattern : nat) : option (list circ) :=
  match nth_error (rows w) pattern with
  | None => None
  | Some (_, _, r) =>
      fold_right (fun id acc => match nth_error (targets w) id, acc with
                                | Some t, Some ts => Some (t :: ts) | _, _ => None end) (Some []) r
  end.
End Ecc.

(** strategy.rs:425-427, GammaStrategyCost::under_threshold, for gamma = num / den (the f64
    multiplication is taken to be exact). *)
Definition gamma_threshold (num den pattern target : nat) : bool := Nat.ltb (target * den) (num * pattern).
