(** Model of the modification of operations that are not gates:
    tket/src/modifier/modifier_resolver/array_modify.rs in full, and modifier_resolver.rs:546-558 (add_node_no_modification),
    956-968 (modify_dataflow_op), 971-1006 (the last arms of modify_extension_op).

    Gates, global phases and modifiers, which modify_extension_op looks for first, are not modelled here.  Types are those of
    [UnpackModel]; usize and sums that are neither tuples nor options are types without structure, as they are for the
    resolver's qubit_finder. *)
From Coq Require Import List Bool Arith.
From Verif Require Import ResolveModel UnpackModel.
Import ListNotations.

(** hugr's GenericArrayOpDef, for the three kinds of arrays (ArrayOp, VArrayOp, BArrayOp). *)
Inductive aop : Type := ANew | AUnpack | AGet | ASet | ASwap | APopLeft | APopRight | ADiscardEmpty.

(** Extension operations: on arrays; conversions from and to standard arrays (VArrayToArray, VArrayFromArray, BArrayToArray,
    BArrayFromArray); any other. *)
Inductive eop : Type :=
| EArr (k : akind) (o : aop) (n : nat) (t : ty)
| EConv (borrow to : bool) (n : nat) (t : ty)
| EOther (label : nat) (ins outs : list ty).

(** Signatures (hugr's array_op.rs and array_conversion.rs). *)
Definition usize : ty := Base 0.
Definition either (k : nat) : ty := Base (S k).
Definition side (borrow : bool) : akind := if borrow then ABorrow else AVal.
Definition rows (e : eop) : list ty * list ty :=
  match e with
  | EArr k o n t =>
      match o with
      | ANew => (repeat t n, [Arr k n t])
      | AUnpack => ([Arr k n t], repeat t n)
      | AGet => ([Arr k n t; usize], [Opt t; Arr k n t])
      | ASet => ([Arr k n t; usize; t], [either 0])
      | ASwap => ([Arr k n t; usize; usize], [either 1])
      | APopLeft | APopRight => ([Arr k n t], [Opt (Tup [t; Arr k (n - 1) t])])
      | ADiscardEmpty => ([Arr k 0 t], [])
      end
  | EConv b true n t => ([Arr (side b) n t], [Arr AStd n t])
  | EConv b false n t => ([Arr AStd n t], [Arr (side b) n t])
  | EOther _ ins outs => (ins, outs)
  end.

(** hugr's all_node_ports: the values, and on each side a port for the order of effects. *)
Definition all_ports (e : eop) : list port :=
  map (pair Incoming) (seq 0 (S (length (fst (rows e))))) ++ map (pair Outgoing) (seq 0 (S (length (snd (rows e))))).

(** The resolver's qubit_finder. *)
Definition quantum (t : ty) : bool := contains_element_type Qb t.

(** The new node and the correspondence from ports of the old node to its ports; the code panics; an error. *)
Inductive outcome : Type := Placed (new : eop) (corr : list (port * port)) | Panicked | Failed.

(** modifier_resolver.rs:546-558, add_node_no_modification *)
Definition unmodified (e : eop) : outcome := Placed e (map (fun p => (p, p)) (all_ports e)).

(** array_modify.rs:62-85, generic_modify_array_op, and modify_array_op; None: not such an operation *)
Definition dagger_aop (o : aop) : option aop :=
  match o with
  | ASwap => Some ASwap
  | ANew => Some AUnpack
  | AUnpack => Some ANew
  | _ => None
  end.
Definition reversed (old new : eop) : outcome := Placed new (map (fun p => (p, reverse p)) (all_ports old)).
Definition modify_array_op (d : bool) (e : eop) : option outcome :=
  match e with
  | EArr k o n t =>
      Some (if negb d then unmodified e
            else match dagger_aop o with Some o' => reversed e (EArr k o' n t) | None => Panicked end)
  | _ => None
  end.

(** array_modify.rs:92-129, try_array_convert *)
Definition try_array_convert (d : bool) (e : eop) : option outcome :=
  if negb d then Some (unmodified e)
  else match e with
       | EConv b to n t => Some (reversed e (EConv b (negb to) n t))
       | _ => None
       end.

(** modifier_resolver.rs:956-968, modify_dataflow_op *)
Definition modify_dataflow_op (d : bool) (e : eop) : outcome :=
  match wire_node_inout quantum d (fst (rows e)) (snd (rows e)) 0 0 0 with
  | Some corr => Placed e corr
  | None => Failed
  end.

(** modifier_resolver.rs:995-1005, the last arms of modify_extension_op: the controls are not touched *)
Definition modify_ext (d : bool) (controls : list (nat * nat)) (e : eop) : outcome * list (nat * nat) :=
  (match modify_array_op d e with
   | Some r => r
   | None =>
       match try_array_convert d e with
       | Some r => r
       | None => modify_dataflow_op d e
       end
   end, controls).
