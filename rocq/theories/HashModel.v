(** Model of the circuit hash: tket/src/circuit/hash.rs.

    The hash functions are parameters: [mix] is an FxHasher64 that is fed hashes and operations
    (hash.rs:118-142), [lhash] is fxhash::hash64 of (predecessor hash, predecessor port, input port)
    (hash.rs:137), [xor] and [zero] combine the links of one port. An operation stands for its hashable
    representation (hash.rs:85-105). [is_dfg]: get_io gives the two io nodes, i.e. the operation is a
    dataflow parent. *)
From Coq Require Import List Bool Arith.
From Verif Require Import HashSpec TopoModel.
Import ListNotations.

Section Hash.
Variables (Op H : Type) (is_dfg : Op -> bool).
Variables (mix : list (H + Op) -> H) (lhash : option H -> nat -> nat -> H) (xor : H -> H -> H) (zero : H).
Notation node := (node Op).

(** hash.rs:145-155, HashError; [Panic]: hash.rs:52 and out of fuel. *)
Inductive res : Type := Ok (h : H) | CyclicCircuit | NotADfg | Panic.

(** hash.rs:58-82, HashState *)
Definition state : Type := nat -> option H.
Definition set_hash (st : state) (n : nat) (h : H) : state := fun m => if Nat.eqb m n then Some h else st m.

(** hash.rs:131-140: one input port. *)
Definition hash_input (st : state) (input : nat) (ls : list (nat * nat)) : H :=
  fold_left (fun total l => xor (lhash (st (fst l)) (snd l) input) total) ls zero.
Fixpoint hash_inputs (st : state) (input : nat) (ls : list (list (nat * nat))) : list (H + Op) :=
  match ls with [] => [] | l :: ls => inl (hash_input st input l) :: hash_inputs st (S input) ls end.
(** hash.rs:113-143, hash_node; [inner] is the hash of the region of its children. *)
Definition hash_node (inner : res) (n : node) (st : state) : res :=
  let tail := inr (nop n) :: hash_inputs st 0 (links n) in
  match kids n with
  | [] => Ok (mix tail)
  | _ => match inner with Ok h => Ok (mix (inl h :: tail)) | e => e end
  end.
(** hash.rs:48-53: the loop over the nodes of the region. *)
Fixpoint hash_loop (inners : list (node * res)) (order : list nat) (st : state) : state + res :=
  match order with
  | [] => inl st
  | n :: order =>
      match find (fun k => Nat.eqb (nid (fst k)) n) inners with
      | None => inr Panic
      | Some (k, inner) =>
          match hash_node inner k st with
          | Ok h => match st n with None => hash_loop inners order (set_hash st n h) | Some _ => inr Panic end
          | e => inr e
          end
      end
  end.
(** hash.rs:38-60, circuit_hash. [walk] gives the order in which a region is visited. The hash
    of the children is computed here before the loop; an error is only looked at when the node is visited. *)
Variable walk : list node -> option (list nat).
Fixpoint circuit_hash (n : node) : res :=
  match n with
  | Node _ op _ ks =>
      if is_dfg op then
        match ks with
        | _ :: out :: _ =>
            match walk ks with
            | None => Panic
            | Some order =>
                match hash_loop (map (fun k => (k, circuit_hash k)) ks) order (fun _ => None) with
                | inr e => e
                | inl st => match st (nid out) with Some h => Ok h | None => CyclicCircuit end
                end
            end
        | _ => NotADfg
        end
      else NotADfg
  end.

(** hash.rs:47-48: the region as a graph (edges between siblings only), walked by petgraph. The order
    of the successors of a node is that of the siblings here. *)
Definition region_succs (ks : list node) (n : nat) : list nat :=
  flat_map (fun k => map (fun _ => nid k) (filter (Nat.eqb n) (map fst (concat (links k))))) ks.
Definition topo_walk (ks : list node) : option (list nat) := topo (map nid ks) (region_succs ks) (region_preds ks).
End Hash.
Arguments Ok {H}. Arguments CyclicCircuit {H}. Arguments NotADfg {H}. Arguments Panic {H}.
