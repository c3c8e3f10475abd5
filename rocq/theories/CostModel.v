(** Model of circuit costs, tket/src/circuit/cost.rs.

    [usize] and [isize] values are integers; arithmetic wraps modulo 2^64 as in a release build
    (a debug build panics in exactly those cases where wrapping changes the value). A
    [LexicographicCost<T, N>] is a list of length N; a plain [usize] cost behaves as the case
    N = 1. *)
From Coq Require Import ZArith List.
Import ListNotations.
Open Scope Z_scope.

Definition m64 : Z := 2 ^ 64.
Definition m63 : Z := 2 ^ 63.
(** Wrapping into usize and isize; [x as isize] is [wrapi x]. *)
Definition wrapu (x : Z) : Z := x mod m64.
Definition wrapi (x : Z) : Z := (x + m63) mod m64 - m63.

(** Componentwise operation on arrays of the same length. *)
Fixpoint zip_with (f : Z -> Z -> Z) (a b : list Z) : list Z :=
  match a, b with
  | x :: a, y :: b => f x y :: zip_with f a b
  | _, _ => []
  end.

(** cost.rs:58-60: Ord derived on the array: the first difference decides. *)
Fixpoint cost_cmp (a b : list Z) : comparison :=
  match a, b with
  | [], [] => Eq
  | [], _ => Lt
  | _, [] => Gt
  | x :: a, y :: b => match Z.compare x y with Eq => cost_cmp a b | c => c end
  end.
Definition cost_ltb (a b : list Z) : bool := match cost_cmp a b with Lt => true | _ => false end.
Definition cost_leb (a b : list Z) : bool := match cost_cmp a b with Gt => false | _ => true end.

(** cost.rs:62-66, Default. *)
Definition cost_default (N : nat) : list Z := repeat 0 N.

(** cost.rs:86-103: Add for costs; Add / AddAssign for deltas. *)
Definition cost_add (a b : list Z) : list Z := zip_with (fun x y => wrapu (x + y)) a b.
Definition delta_add (a b : list Z) : list Z := zip_with (fun x y => wrapi (x + y)) a b.

(** cost.rs:105-109, Sum: reduce, or the default. *)
Definition cost_sum (N : nat) (l : list (list Z)) : list Z :=
  match l with [] => cost_default N | x :: r => fold_left cost_add r x end.

(** cost.rs:111-131, as_isize / as_usize: the first component, or 0. *)
Definition as_isize (d : list Z) : Z := match d with x :: _ => x | [] => 0 end.
Definition as_usize (d : list Z) : Z := match d with x :: _ => x | [] => 0 end.

(** cost.rs:134-140, sub_cost. *)
Definition sub_cost (a b : list Z) : list Z := zip_with (fun x y => wrapi (wrapi x - wrapi y)) a b.

(** cost.rs:143-149, add_delta, with usize::saturating_add_signed. *)
Definition sat (x : Z) : Z := if x <? 0 then 0 else if m64 <=? x then m64 - 1 else x.
Definition add_delta (a d : list Z) : list Z := zip_with (fun x y => sat (x + y)) a d.

(** cost.rs:152-158, div_cost, with usize::saturating_sub. *)
Definition satsub1 (x : Z) : Z := if x <? 1 then 0 else x - 1.
Definition div_cost (a : list Z) (n : Z) : list Z := map (fun x => satsub1 x / n + 1) a.
