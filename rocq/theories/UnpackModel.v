(** Model of the container unpacker: [tket/src/passes/unpack_container.rs],
    [tket/src/passes/unpack_container/type_unpack.rs], and of the runtime
    barrier inserter that uses it,
    [tket-qsystem/src/extension/qsystem/barrier/barrier_inserter.rs] and
    [wrapped_barrier.rs].

    The code builds graph nodes.  The model evaluates the graph that is built
    on given values, and keeps beside each value the type of the wire that
    carries it, so that a mismatch between a function's outputs and the
    signature of the operation it implements shows up as [BuildErr]. *)

From Coq Require Import List Arith Bool.
Import ListNotations.

(** Array kinds: [Array], [ValueArray], [BorrowArray]. *)
Inductive akind := AStd | AVal | ABorrow.

(** Types.  [Qb] is [qb_t()]; [Base k] any other type that is no container
    (extension types, other sums, functions); [Tup] a sum with one variant;
    [Opt] a unary option; [Arr] an array of one of the three kinds.  Row
    variables are left out (the code panics on them). *)
Inductive ty :=
| Qb
| Base (k : nat)
| Tup (row : list ty)
| Opt (t : ty)
| Arr (k : akind) (n : nat) (t : ty).

(** Values.  A [None] in an array is the place of an element borrowed from a borrow
    array. *)
Inductive value :=
| VAtom (n : nat)
| VTup (l : list value)
| VNone
| VSome (v : value)
| VArr (l : list (option value)).

(** A wire of the built graph: its type and the value it carries. *)
Definition wire := (ty * value)%type.

(** [BuildErr]: the builder or the validation of the built graph fails.
    [HostPanic]: the compiler panics.  [RunPanic]: the built program panics
    when it is run. *)
Inductive res (A : Type) :=
| Ok (a : A)
| BuildErr
| HostPanic
| RunPanic.
Arguments Ok {A}. Arguments BuildErr {A}. Arguments HostPanic {A}. Arguments RunPanic {A}.

Definition bind {A B} (x : res A) (f : A -> res B) : res B :=
  match x with
  | Ok a => f a
  | BuildErr => BuildErr
  | HostPanic => HostPanic
  | RunPanic => RunPanic
  end.

(** [collect] of an iterator of results. *)
Fixpoint all_ok {A} (l : list (res A)) : res (list A) :=
  match l with
  | [] => Ok []
  | x :: l' => bind x (fun a => bind (all_ok l') (fun l'' => Ok (a :: l'')))
  end.

Definition akind_eqb (a b : akind) : bool :=
  match a, b with
  | AStd, AStd | AVal, AVal | ABorrow, ABorrow => true
  | _, _ => false
  end.

(** [==] on types. *)
Fixpoint ty_eqb (a b : ty) : bool :=
  match a, b with
  | Qb, Qb => true
  | Base k, Base k' => k =? k'
  | Tup l, Tup l' =>
      (fix go l l' := match l, l' with
                      | [], [] => true
                      | x :: l1, y :: l2 => ty_eqb x y && go l1 l2
                      | _, _ => false
                      end) l l'
  | Opt t, Opt t' => ty_eqb t t'
  | Arr k n t, Arr k' n' t' => akind_eqb k k' && (n =? n') && ty_eqb t t'
  | _, _ => false
  end.

Fixpoint row_eqb (l l' : list ty) : bool :=
  match l, l' with
  | [], [] => true
  | x :: l1, y :: l2 => ty_eqb x y && row_eqb l1 l2
  | _, _ => false
  end.

(** type_unpack.rs:12-19 [is_opt_of]. *)
Definition is_opt_of (t elem : ty) : bool :=
  match t with Opt inner => ty_eqb inner elem | _ => false end.

Section Unpacker.
(** [TypeUnpacker::element_type]. *)
Variable elem : ty.

(** type_unpack.rs:72-136 [unpack_type], [_new_unpack_type] and [tuple_row].
    The memo table, keyed by the type, is left out. *)
Fixpoint unpack_type (t : ty) : option (list ty) :=
  if ty_eqb t elem then Some [elem]
  else match t with
       | Tup row =>
           let inner := map (fun t => (t, unpack_type t)) row in
           if existsb (fun p => match snd p with Some _ => true | None => false end) inner
           then Some (flat_map (fun p => match snd p with
                                         | Some r => r
                                         | None => [fst p]
                                         end) inner)
           else None
       | Arr _ n t' =>
           if is_opt_of t' elem then Some (repeat elem n)
           else match unpack_type t' with
                | Some inner => Some (concat (repeat inner n))
                | None => None
                end
       | _ => None
       end.

(** type_unpack.rs:138-140 [num_unpacked_wires]. *)
Definition num_unpacked_wires (t : ty) : nat :=
  match unpack_type t with Some r => length r | None => 1 end.

(** type_unpack.rs:143-145 [contains_element_type]. *)
Definition contains_element_type (t : ty) : bool :=
  match unpack_type t with Some _ => true | None => false end.

(** unpack_container.rs:191-213 [unpack_option]: the built function expects the
    option to hold a value of type [elem]; the operation takes [Option elem]. *)
Definition unpack_option (t : ty) (v : value) : res (list wire) :=
  if ty_eqb t (Opt elem) then
    match v with
    | VSome v' => Ok [(elem, v')]
    | _ => RunPanic
    end
  else BuildErr.

(** unpack_container.rs:216-238 [repack_option]. *)
Definition repack_option (w : wire) : res wire :=
  if ty_eqb (fst w) elem then Ok (Opt elem, VSome (snd w)) else BuildErr.

(** The function built for an operation must end with the outputs declared in
    the operation's signature (op_function_map.rs:61-88
    [finish_hugr_with_outputs]). *)
Definition check_row (row : list ty) (ws : list wire) : res (list wire) :=
  if row_eqb (map fst ws) row then Ok ws else BuildErr.

(** The elements of an array, by [add_array_unpack]: a borrowed element is a
    runtime panic. *)
Definition array_elems (l : list (option value)) : res (list value) :=
  all_ok (map (fun o => match o with Some v => Ok v | None => RunPanic end) l).

(** unpack_container.rs:447-494 [unpack_container], with [unpack_array]
    (241-272), [unpack_tuple] (380-408) and [unpack_row] (344-359) inlined. *)
Fixpoint unpack (t : ty) (v : value) : res (list wire) :=
  if ty_eqb t elem then Ok [(t, v)]
  else if is_opt_of t Qb then unpack_option t v
  else match t with
       | Arr _ n t' =>
           match unpack_type t with
           | None => Ok [(t, v)]
           | Some row =>
               match v with
               | VArr l =>
                   bind (array_elems l) (fun vs =>
                   bind (all_ok (map (unpack t') vs)) (fun wss =>
                   check_row row (concat wss)))
               | _ => BuildErr
               end
           end
       | Tup ts =>
           match unpack_type t with
           | None => Ok [(t, v)]
           | Some row =>
               match v with
               | VTup vs =>
                   bind ((fix go ts vs :=
                            match ts, vs with
                            | t' :: ts', v' :: vs' =>
                                bind (unpack t' v') (fun ws =>
                                bind (go ts' vs') (fun ws' => Ok (ws ++ ws')))
                            | _, _ => Ok []
                            end) ts vs) (fun ws => check_row row ws)
               | _ => BuildErr
               end
           end
       | _ => Ok [(t, v)]
       end.

(** [slice::chunks]: pieces of [k] elements, the last one may be shorter.
    Called with [k > 0]; [fuel] is the length of the list. *)
Fixpoint chunks_fuel {A} (fuel k : nat) (l : list A) : list (list A) :=
  match fuel, l with
  | S f, _ :: _ => firstn k l :: chunks_fuel f k (skipn k l)
  | _, _ => []
  end.
Definition chunks {A} (k : nat) (l : list A) : list (list A) := chunks_fuel (length l) k l.

(** Indexing the first wire; an empty vector panics. *)
Definition first_wire (ws : list wire) : res wire :=
  match ws with w :: _ => Ok w | [] => HostPanic end.

(** unpack_container.rs:497-548 [repack_container], with [repack_array]
    (288-327), [repack_tuple] (411-444) and [repack_row] (362-377) inlined.
    [chunks] panics when the chunk size is zero. *)
Fixpoint repack (t : ty) (ws : list wire) : res wire :=
  if ty_eqb t elem then first_wire ws
  else if is_opt_of t elem then bind (first_wire ws) repack_option
  else match t with
       | Arr k n t' =>
           match unpack_type t with
           | None => first_wire ws
           | Some row =>
               let inner := num_unpacked_wires t' in
               if inner =? 0 then HostPanic
               else
                 bind (check_row row ws) (fun ws =>
                 bind (all_ok (map (repack t') (chunks inner ws))) (fun es =>
                 if row_eqb (map fst es) (repeat t' n)
                 then Ok (t, VArr (map (fun e => Some (snd e)) es))
                 else BuildErr))
           end
       | Tup ts =>
           match unpack_type t with
           | None => first_wire ws
           | Some row =>
               bind (check_row row ws) (fun ws =>
               bind ((fix go ts ws :=
                        match ts with
                        | [] => Ok []
                        | t' :: ts' =>
                            let c := num_unpacked_wires t' in
                            bind (repack t' (firstn c ws)) (fun w =>
                            bind (go ts' (skipn c ws)) (fun l => Ok (w :: l)))
                        end) ts ws) (fun es =>
               if row_eqb (map fst es) ts
               then Ok (t, VTup (map snd es))
               else BuildErr))
           end
       | _ => first_wire ws
       end.

(** unpack_container.rs:344-359 [unpack_row]. *)
Fixpoint unpack_row (ts : list ty) (vs : list value) : res (list wire) :=
  match ts, vs with
  | t :: ts', v :: vs' =>
      bind (unpack t v) (fun ws =>
      bind (unpack_row ts' vs') (fun ws' => Ok (ws ++ ws')))
  | _, _ => Ok []
  end.

(** unpack_container.rs:362-377 [repack_row]. *)
Fixpoint repack_row (ts : list ty) (ws : list wire) : res (list wire) :=
  match ts with
  | [] => Ok []
  | t :: ts' =>
      let c := num_unpacked_wires t in
      bind (repack t (firstn c ws)) (fun w =>
      bind (repack_row ts' (skipn c ws)) (fun l => Ok (w :: l)))
  end.

End Unpacker.

(** * The runtime barrier *)

Section Barrier.
(** The runtime barrier, an operation on an array of qubits: given the qubits it
    receives, those it returns. *)
Variable barrier : list value -> list value.

(** barrier_inserter.rs:112-116: the wires whose type is the qubit. *)
Definition is_qubit_wire (w : wire) : bool := ty_eqb (fst w) Qb.

(** barrier_inserter.rs:131-141: put the outputs of the barrier in place of the
    qubit wires; [None] when there are not enough of them (a panic). *)
Fixpoint replace_qubits (ws : list wire) (outs : list value) : option (list wire) :=
  match ws with
  | [] => Some []
  | w :: ws' =>
      if is_qubit_wire w then
        match outs with
        | o :: outs' => option_map (cons (Qb, o)) (replace_qubits ws' outs')
        | [] => None
        end
      else option_map (cons w) (replace_qubits ws' outs)
  end.

(** barrier_inserter.rs:95-150 [build_packing_hugr], run on the given values. *)
Definition packing (ts : list ty) (vs : list value) : res (list value) :=
  bind (unpack_row Qb ts vs) (fun ws =>
  let qubits := map snd (filter is_qubit_wire ws) in
  match replace_qubits ws (barrier qubits) with
  | None => HostPanic
  | Some ws' =>
      bind (repack_row Qb ts ws') (fun outs =>
      if row_eqb (map fst outs) ts then Ok (map snd outs) else BuildErr)
  end).

(** barrier_inserter.rs:75-92 [try_array_barrier_shortcut] and
    wrapped_barrier.rs:98-104 [build_runtime_barrier_op]: a single array of the
    standard kind is given to the barrier directly. *)
Definition array_barrier (v : value) : res value :=
  match v with
  | VArr l => bind (array_elems l) (fun vs => Ok (VArr (map Some (barrier vs))))
  | _ => BuildErr
  end.

Definition is_qubit_array (t : ty) : bool :=
  match t with Arr AStd _ t' => ty_eqb t' Qb | _ => false end.

(** [InsertCut] (hugr): put the results back on the edges they were taken from;
    the other edges are not touched. *)
Fixpoint put_back (ts : list ty) (vs outs : list value) : list value :=
  match ts, vs with
  | t :: ts', v :: vs' =>
      if contains_element_type Qb t
      then match outs with
           | o :: outs' => o :: put_back ts' vs' outs'
           | [] => v :: put_back ts' vs' []
           end
      else v :: put_back ts' vs' outs
  | _, _ => []
  end.

(** barrier_inserter.rs:48-72 [filter_qubit_containers]. *)
Definition qubit_containers (ts : list ty) (vs : list value) : list (ty * value) :=
  filter (fun p => contains_element_type Qb (fst p)) (combine ts vs).

(** barrier_inserter.rs:153-184 [insert_runtime_barrier]: the values that leave a
    [Barrier] node with row [ts] after the insertion, when [vs] enter it. *)
Definition insert_runtime_barrier (ts : list ty) (vs : list value) : res (list value) :=
  match qubit_containers ts vs with
  | [] => Ok vs
  | [(t, v)] =>
      if is_qubit_array t
      then bind (array_barrier v) (fun o => Ok (put_back ts vs [o]))
      else bind (packing [t] [v]) (fun outs => Ok (put_back ts vs outs))
  | ps => bind (packing (map fst ps) (map snd ps)) (fun outs => Ok (put_back ts vs outs))
  end.

End Barrier.
