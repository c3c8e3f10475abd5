(** Model of the bounded priority queue of the optimisers, tket/src/optimiser/pqueue.rs.

    Hashes (u64) are [nat]s: they are only compared. [DoublePriorityQueue] (crate
    priority-queue) is a list of (hash, cost) pairs with distinct hashes; where several
    entries have the extreme cost, which one is popped is decided by an arbitrary stream of
    choices [ties], so theorems for all [ties] cover every heap layout. Hash maps and sets
    are lists. [capacity()] of the all-time-best queue is taken to be the capacity it was
    created with (it is the capacity of a vector that is never filled beyond it).
    The outer [option] is [None] when the code panics. *)
From Coq Require Import List Bool Arith.
From Verif Require Import PQueueSpec.
Import ListNotations.

Section PQ.
Variables (S P : Type) (ltb : P -> P -> bool).

Definition dpq : Type := list (nat * P).

(** Hash maps: FxHashMap::{get, remove, entry().or_insert}. *)
Fixpoint assoc {V : Type} (h : nat) (l : list (nat * V)) : option V :=
  match l with
  | [] => None
  | (k, v) :: r => if Nat.eqb k h then Some v else assoc h r
  end.
Definition remove_key {V : Type} (h : nat) (l : list (nat * V)) : list (nat * V) :=
  filter (fun e => negb (Nat.eqb (fst e) h)) l.
Definition or_insert {V : Type} (h : nat) (v : V) (l : list (nat * V)) : list (nat * V) :=
  match assoc h l with Some _ => l | None => (h, v) :: l end.
Definition contains (h : nat) (l : dpq) : bool :=
  match assoc h l with Some _ => true | None => false end.

(** DoublePriorityQueue::{peek_min, peek_max, pop_min, pop_max, push}: [better a b] means that
    [a] comes out before [b]; [t] chooses among the candidates. *)
Definition candidates (better : P -> P -> bool) (l : dpq) : dpq :=
  filter (fun e => forallb (fun e' => negb (better (snd e') (snd e))) l) l.
Definition pick (better : P -> P -> bool) (t : nat) (l : dpq) : option (nat * P) :=
  nth_error (candidates better l) (t mod length (candidates better l)).
Definition dpq_pop (better : P -> P -> bool) (t : nat) (l : dpq) : option ((nat * P) * dpq) :=
  match pick better t l with
  | Some e => Some (e, remove_key (fst e) l)
  | None => None
  end.
Definition gtb (a b : P) : bool := ltb b a.
Definition dpq_push (h : nat) (c : P) (l : dpq) : dpq := remove_key h l ++ [(h, c)].

(** pqueue.rs:16-24, StatePQueue; the all-time-best queue with its capacity. [ties] is not in
    the code: the choices still to be made by the heaps. *)
Record pq : Type := {
  queue : dpq;
  lookup : list (nat * S);
  seen : list nat;
  max_size : nat;
  atb : option (nat * dpq);
  ties : nat -> nat
}.

(** pqueue.rs:38-46, new. *)
Definition pq_new (max : nat) (n_best : option nat) (t : nat -> nat) : pq :=
  {| queue := []; lookup := []; seen := []; max_size := max;
     atb := match n_best with Some n => Some (n, []) | None => None end; ties := t |}.

Definition next_ties (t : nat -> nat) : nat -> nat := fun n => t (Datatypes.S n).

(** pqueue.rs:169-171, max_cost (the cost of peek_max does not depend on the choice made). *)
Definition max_cost (q : pq) : option P :=
  match pick gtb 0 (queue q) with Some (_, c) => Some c | None => None end.

(** pqueue.rs:182-190, check_accepted; [None]: panic at the unwrap. *)
Definition check_accepted (q : pq) (c : P) : option bool :=
  if Nat.eqb (max_size q) 0 then Some false
  else if Nat.ltb (length (queue q)) (max_size q) then Some true
  else match max_cost q with Some m => Some (ltb c m) | None => None end.

(** pqueue.rs:115-124 and 134-143: fetch the state of a popped hash. The entry is removed
    from the lookup only if there is an all-time-best queue that does not contain it. *)
Definition fetch (q : pq) (h : nat) : option S * list (nat * S) :=
  match atb q with
  | Some (_, b) =>
      if contains h b then (assoc h (lookup q), lookup q)
      else (assoc h (lookup q), remove_key h (lookup q))
  | None => (assoc h (lookup q), lookup q)
  end.

(** pqueue.rs:113-126 (pop) and 129-145 (pop_max). *)
Definition pop_by (better : P -> P -> bool) (q : pq) : pq * option (entry S P) :=
  match dpq_pop better (ties q 0) (queue q) with
  | None => (q, None)
  | Some ((h, c), rest) =>
      let (s, lk) := fetch q h in
      ({| queue := rest; lookup := lk; seen := seen q; max_size := max_size q;
          atb := atb q; ties := next_ties (ties q) |},
       match s with Some s => Some (h, c, s) | None => None end)
  end.
Definition pq_pop (q : pq) := pop_by ltb q.
Definition pq_pop_max (q : pq) := pop_by gtb q.

(** pqueue.rs:147-155, pop_max_all_time_best. *)
Definition pop_max_atb (q : pq) : pq :=
  match atb q with
  | None => q
  | Some (n, b) =>
      match dpq_pop gtb (ties q 0) b with
      | None => q
      | Some ((h, _), rest) =>
          {| queue := queue q;
             lookup := if contains h (queue q) then lookup q else remove_key h (lookup q);
             seen := seen q; max_size := max_size q;
             atb := Some (n, rest); ties := next_ties (ties q) |}
      end
  end.

Definition set_atb (q : pq) (b : option (nat * dpq)) : pq :=
  {| queue := queue q; lookup := lookup q; seen := seen q; max_size := max_size q;
     atb := b; ties := ties q |}.
Definition atb_insert (q : pq) (h : nat) (c : P) : pq :=
  match atb q with
  | Some (n, b) => set_atb q (Some (n, dpq_push h c b))
  | None => q
  end.

(** pqueue.rs:98-110, push_all_time_best. [Some(&cost) < None] is false. *)
Definition push_atb (q : pq) (h : nat) (c : P) : pq :=
  match atb q with
  | None => q
  | Some (n, b) =>
      if Nat.eqb (length b) n then
        match pick gtb 0 b with
        | Some (_, m) => if ltb c m then atb_insert (pop_max_atb q) h c else q
        | None => q
        end
      else atb_insert q h c
  end.

(** pqueue.rs:76-95, push_unchecked. *)
Definition pq_push (q : pq) (s : S) (h : nat) (c : P) : option (pq * option (entry S P)) :=
  match check_accepted q c with
  | None => None
  | Some false => Some (q, None)
  | Some true =>
      if existsb (Nat.eqb h) (seen q) then Some (q, None)
      else
        let q := {| queue := queue q; lookup := lookup q; seen := h :: seen q;
                    max_size := max_size q; atb := atb q; ties := ties q |} in
        let q := if Nat.leb (max_size q) (length (queue q)) then fst (pq_pop_max q) else q in
        let q := {| queue := dpq_push h c (queue q); lookup := lookup q; seen := seen q;
                    max_size := max_size q; atb := atb q; ties := ties q |} in
        let q := push_atb q h c in
        match assoc h (queue q) with
        | None => None                       (* expect("just inserted") *)
        | Some c' =>
            let lk := or_insert h s (lookup q) in
            Some ({| queue := queue q; lookup := lk; seen := seen q; max_size := max_size q;
                     atb := atb q; ties := ties q |},
                  match assoc h lk with Some s' => Some (h, c', s') | None => None end)
        end
  end.

(** pqueue.rs:161-166, truncate. *)
Fixpoint truncate_loop (fuel : nat) (q : pq) (max : nat) : pq :=
  match fuel with
  | O => q
  | Datatypes.S fuel =>
      if Nat.ltb max (length (queue q)) then
        match dpq_pop gtb (ties q 0) (queue q) with
        | None => q
        | Some ((h, _), rest) =>
            truncate_loop fuel
              {| queue := rest; lookup := remove_key h (lookup q); seen := seen q;
                 max_size := max_size q; atb := atb q; ties := next_ties (ties q) |} max
        end
      else q
  end.
Definition truncate (q : pq) (max : nat) : pq := truncate_loop (length (queue q)) q max.

(** DoublePriorityQueue::into_sorted_iter: pops the minimum until empty. *)
Fixpoint sorted_iter (fuel : nat) (l : dpq) (t : nat -> nat) : dpq :=
  match fuel with
  | O => []
  | Datatypes.S fuel =>
      match dpq_pop ltb (t 0) l with
      | None => []
      | Some (e, rest) => e :: sorted_iter fuel rest (next_ties t)
      end
  end.

(** pqueue.rs:198-206, into_all_time_best. The inner option is the one of the code; the outer
    one is [None] if an unwrap panics. *)
Fixpoint collect_states (l : dpq) (lk : list (nat * S)) : option (list S) :=
  match l with
  | [] => Some []
  | (h, _) :: r =>
      match assoc h lk with
      | None => None
      | Some s =>
          match collect_states r (remove_key h lk) with
          | None => None
          | Some ss => Some (s :: ss)
          end
      end
  end.
Definition into_all_time_best (q : pq) : option (option (list S)) :=
  match atb q with
  | None => Some None
  | Some (_, b) =>
      match collect_states (sorted_iter (length b) b (ties q)) (lookup q) with
      | None => None
      | Some ss => Some (Some ss)
      end
  end.

(** A sequence of calls. *)
Definition do_call (q : pq) (c : call S P) : option (pq * outcome S P) :=
  match c with
  | Push s h c =>
      match pq_push q s h c with
      | None => None
      | Some (q, r) => Some (q, Pushed r)
      end
  | Pop => let (q, r) := pq_pop q in Some (q, Popped r)
  end.
Fixpoint do_calls (q : pq) (cs : list (call S P)) : option (pq * list (outcome S P)) :=
  match cs with
  | [] => Some (q, [])
  | c :: cs =>
      match do_call q c with
      | None => None
      | Some (q, o) =>
          match do_calls q cs with
          | None => None
          | Some (q, os) => Some (q, o :: os)
          end
      end
  end.
End PQ.

Arguments queue {S P}. Arguments lookup {S P}. Arguments seen {S P}. Arguments max_size {S P}.
Arguments atb {S P}. Arguments ties {S P}. Arguments pq_new {S P}. Arguments dpq_pop {P}.
Arguments pick {P}. Arguments candidates {P}. Arguments pq_push {S P}. Arguments pq_pop {S P}.
Arguments pq_pop_max {S P}. Arguments pop_by {S P}. Arguments truncate {S P}.
Arguments into_all_time_best {S P}. Arguments do_calls {S P}. Arguments do_call {S P}.
Arguments push_atb {S P}. Arguments pop_max_atb {S P}. Arguments check_accepted {S P}.
Arguments max_cost {S P}. Arguments gtb {P}. Arguments contains {P}. Arguments dpq_push {P}.
Arguments fetch {S P}. Arguments sorted_iter {P}. Arguments collect_states {S P}.
Arguments atb_insert {S P}. Arguments set_atb {S P}. Arguments truncate_loop {S P}.
