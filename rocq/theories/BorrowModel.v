(** Model of the pass that elides return/borrow pairs on borrow arrays:
    tket/src/passes/borrow_squash.rs.

    A region is a list of nodes with their input wires (BorrowSpec); it is kept in one
    topological order, which removing nodes and reconnecting does not change. Only value edges are
    represented: state-order edges and non-local edges are left out. [ty] gives the type of each wire
    (hugr types are a parameter). Panics are [None]. *)
From Coq Require Import List Bool Arith.
From Verif Require Import BorrowSpec.
Import ListNotations.

Section Borrow.
Variables (O T : Type) (T_eqb : T -> T -> bool) (is_array : T -> bool) (ty : wire -> T).
Notation graph := (graph O).

(** hugr: optype of a node, linked_inputs of a wire in port order, linked output of an input port. *)
Definition find_node (g : graph) (n : nat) : option (node O) := find (fun m => Nat.eqb (nid m) n) g.
Fixpoint ports_of (w : wire) (p : nat) (l : list wire) : list nat :=
  match l with
  | [] => []
  | x :: l => if wire_dec x w then p :: ports_of w (S p) l else ports_of w (S p) l
  end.
Definition linked_inputs (g : graph) (w : wire) : list (nat * nat) :=
  flat_map (fun m => map (fun p => (nid m, p)) (ports_of w 0 (ins m))) g.
Definition single_linked_input (g : graph) (w : wire) : option (nat * nat) :=
  match linked_inputs g w with [x] => Some x | _ => None end.
Definition single_linked_output (g : graph) (n p : nat) : option wire :=
  match find_node g n with Some m => nth_error (ins m) p | None => None end.
Fixpoint set_nth {A : Type} (i : nat) (x : A) (l : list A) : list A :=
  match l, i with
  | [], _ => []
  | _ :: l, 0 => x :: l
  | y :: l, S i => y :: set_nth i x l
  end.
(** hugr.connect: here it replaces the wire at the port; in the code the old edge goes away when
    its source is removed, before anything else looks at that port. *)
Definition connect (src : wire) (tgt : nat * nat) (g : graph) : graph :=
  map (fun m => if Nat.eqb (nid m) (fst tgt) then {| nid := nid m; knd := knd m; ins := set_nth (snd tgt) src (ins m) |} else m) g.
Definition remove_node (n : nat) (g : graph) : graph := filter (fun m => negb (Nat.eqb (nid m) n)) g.
(** borrow_squash.rs:337-339 *)
Definition all_outs (m : node O) : list wire := map (fun p => (nid m, p)) (seq 0 (n_outs (knd m))).

(** borrow_squash.rs:96-104, BRAction. The ports (borrow_squash.rs:124-150): the array enters port
    0 and leaves by 0, the index enters port 1, the value leaves a borrow by 1 and enters a return at 2. *)
Inductive action : Type := ABorrow | AReturn.
Definition aop : Type := (nat * nat * action)%type.          (* node, index, action *)

(** borrow_squash.rs:341-361, find_const: [None] panics, [Some None] is an unknown index. *)
Definition find_const (g : graph) (n : nat) (p : nat) : option (option nat) :=
  match single_linked_output g n p with
  | None => None
  | Some w =>
      match find_node g (fst w) with
      | Some {| knd := KConst i |} => Some (Some i)
      | Some _ => Some None
      | None => None
      end
  end.

(** borrow_squash.rs:285-328, next_array_op: stop with new candidates, or the next operation. *)
Inductive next : Type := Stop (candidates : list wire) | Next (op : aop).
Definition next_array_op (g : graph) (array_ty : T) (array : wire) : option next :=
  match single_linked_input g array with
  | None => None                                              (* expect("array is linear") *)
  | Some (n, p) =>
      match find_node g n with
      | None => None
      | Some m =>
          let go (a : action) :=
            if negb (T_eqb array_ty (ty (n, 0))) then None     (* assert_eq *)
            else
              match find_const g n 1 with
              | None => None
              | Some None => Some (Stop (all_outs m))
              | Some (Some i) => Some (Next (n, i, a))
              end in
          match knd m with
          | KBorrow => if Nat.eqb p 0 then go ABorrow else None
          | KReturn => if Nat.eqb p 0 then go AReturn else if Nat.eqb p 2 then Some (Stop []) else None
          | _ => Some (Stop (all_outs m))
          end
      end
  end.

(** borrow_squash.rs:211-216: the operations met along the array. The loop does not change the
    graph, so walking along the array is separated from looking at what was found. Fuel: the
    number of nodes. *)
Fixpoint walk (fuel : nat) (g : graph) (array_ty : T) (array : wire) : option (list aop * list wire) :=
  match fuel with
  | 0 => None
  | S fuel =>
      match next_array_op g array_ty array with
      | None => None
      | Some (Stop c) => Some ([], c)
      | Some (Next (n, i, a)) =>
          match walk fuel g array_ty (n, 0) with
          | Some (ops, c) => Some ((n, i, a) :: ops, c)
          | None => None
          end
      end
  end.

(** borrow_squash.rs:206-245: the map from index to borrow and return nodes, and the pairs (return,
    borrow) to elide. *)
Definition entries : Type := list (nat * (nat * option nat)).
Fixpoint get (b : entries) (i : nat) : option (nat * option nat) :=
  match b with [] => None | (j, x) :: b => if Nat.eqb j i then Some x else get b i end.
Definition del (b : entries) (i : nat) : entries := filter (fun e => negb (Nat.eqb (fst e) i)) b.
Definition put (b : entries) (i : nat) (x : nat * option nat) : entries := (i, x) :: del b i.
Definition scan_op (b : entries) (op : aop) : entries * list (nat * nat) :=
  let '(n, i, a) := op in
  match a, get b i with
  | ABorrow, None => (put b i (n, None), [])
  | AReturn, Some (b0, r) => match r with Some _ => (del b i, []) | None => (put b i (b0, Some n), []) end
  | ABorrow, Some (b0, Some r) => (put b i (b0, None), [(r, n)])
  | ABorrow, Some (b0, None) => (del b i, [])
  | AReturn, None => (b, [])
  end.
Fixpoint scan (b : entries) (ops : list aop) : entries * list (nat * nat) :=
  match ops with
  | [] => (b, [])
  | op :: ops => let '(b1, e1) := scan_op b op in let '(b2, e2) := scan b1 ops in (b2, e1 ++ e2)
  end.

(** borrow_squash.rs:247-256 *)
Definition elide_node (n : nat) (g : graph) : option graph :=
  match single_linked_output g n 0, single_linked_input g (n, 0) with
  | Some i, Some o => Some (remove_node n (connect i o g))
  | _, _ => None
  end.
(** borrow_squash.rs:259-268 *)
Definition elide (g : graph) (e : nat * nat) : option graph :=
  let '(ret, bor) := e in
  match single_linked_output g ret 2 with
  | None => None
  | Some src =>
      let g := fold_left (fun g tgt => connect src tgt g) (linked_inputs g (bor, 1)) g in
      match elide_node bor g with
      | None => None
      | Some g => elide_node ret g
      end
  end.
Fixpoint elide_all (g : graph) (l : list (nat * nat)) : option graph :=
  match l with
  | [] => Some g
  | e :: l => match elide g e with Some g => elide_all g l | None => None end
  end.

(** borrow_squash.rs:184-283, borrow_squash_traversal: the graph, the elided pairs and the
    new candidates. [order] is the order in which the hash map is iterated. Fuel: the depth of nested
    arrays. The start must exist (borrow_squash.rs:160-162). *)
Variable order : entries -> entries.
Fixpoint traverse (fuel : nat) (recurse : bool) (g : graph) (start : wire) : option (graph * list (nat * nat) * list wire) :=
  match fuel with
  | 0 => None
  | S fuel =>
      if negb (existsb (fun m => Nat.eqb (nid m) (fst start) && Nat.ltb (snd start) (n_outs (knd m))) g) then None
      else if negb (is_array (ty start)) then
        Some (g, [], flat_map (fun t => match find_node g (fst t) with
                                        | Some m => if is_br (knd m) then [] else all_outs m
                                        | None => []
                                        end) (linked_inputs g start))
      else
        match walk (S (length g)) g (ty start) start with
        | None => None
        | Some (ops, c) =>
            let '(borrowed, elisions) := scan [] ops in
            match elide_all g elisions with
            | None => None
            | Some g =>
                if recurse then
                  fold_left (fun acc e =>
                    match acc with
                    | None => None
                    | Some (g, el, c) =>
                        match traverse fuel true g (fst (snd e), 1) with
                        | Some (g', el', c') => Some (g', el ++ el', c ++ c')
                        | None => None
                        end
                    end) (order borrowed) (Some (g, elisions, c))
                else Some (g, elisions, c)
            end
        end
  end.

(** borrow_squash.rs:66-75: the work list of a region. *)
Fixpoint squash_loop (fuel : nat) (g : graph) (seen queue : list wire) (results : list (nat * nat)) : option (graph * list (nat * nat)) :=
  match fuel with
  | 0 => None
  | S fuel =>
      match queue with
      | [] => Some (g, results)
      | start :: queue =>
          if in_dec wire_dec start seen then squash_loop fuel g seen queue results
          else
            match traverse (S (length g)) true g start with
            | None => None
            | Some (g, el, c) => squash_loop fuel g (start :: seen) (queue ++ c) (results ++ el)
            end
      end
  end.
(** borrow_squash.rs:60-76: one region. *)
Definition squash_region (fuel : nat) (g : graph) : option (graph * list (nat * nat)) :=
  squash_loop fuel g [] (flat_map (fun m => match ins m with [] => all_outs m | _ => [] end) g) [].
End Borrow.
