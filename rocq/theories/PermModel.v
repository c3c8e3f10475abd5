(** Model of register names and of the order of qubits at the output:
    tket/src/serialize/pytket/encoder/unit_generator.rs, encoder/value_tracker.rs:576-631
    (compute_final_permutation) and decoder/wires.rs:419-466. *)
From Coq Require Import List Bool Arith ZArith String.
Import ListNotations.

(** tket_json_rs::register::ElementId: a name and i64 indices. RegisterHash is taken to be injective. *)
Record reg : Type := { rname : string; rindex : list Z }.
Definition reg_dec : forall a b : reg, {a = b} + {a <> b}.
Proof. decide equality; [apply (list_eq_dec Z.eq_dec)|apply string_dec]. Defined.

(** ** unit_generator.rs *)
Definition u16 : Z := 65536.
(** [as u16] truncates. *)
Definition as_u16 (i : Z) : Z := Z.modulo i u16.
(** [a + 1] in u16: with overflow checks (debug builds) a panic, otherwise it wraps. *)
Definition succ_u16 (checked : bool) (i : Z) : option Z :=
  if Z.ltb (i + 1) u16 then Some (i + 1)%Z else if checked then None else Some 0%Z.

(** unit_generator.rs:9-14 *)
Record generator : Type := { next_unit : Z; register : string }.
(** unit_generator.rs:25-31: the last index in use; only the first index is looked at, and having none
    is a panic. *)
Fixpoint last_unit (register : string) (existing : list reg) (last : option Z) : option (option Z) :=
  match existing with
  | [] => Some last
  | r :: rs =>
      if string_dec (rname r) register
      then match rindex r with
           | [] => None
           | i :: _ => last_unit register rs (Some (Z.max (match last with Some l => l | None => 0%Z end) (as_u16 i)))
           end
      else last_unit register rs last
  end.
(** unit_generator.rs:21-36, new *)
Definition new_generator (checked : bool) (register : string) (existing : list reg) : option generator :=
  match last_unit register existing None with
  | None => None
  | Some None => Some {| next_unit := 0%Z; register := register |}
  | Some (Some i) => match succ_u16 checked i with Some n => Some {| next_unit := n; register := register |} | None => None end
  end.
(** unit_generator.rs:39-43, next *)
Definition next (checked : bool) (g : generator) : option (reg * generator) :=
  match succ_u16 checked (next_unit g) with
  | None => None
  | Some n => Some ({| rname := register g; rindex := [next_unit g] |}, {| next_unit := n; register := register g |})
  end.
(** The first [n] results. *)
Fixpoint nexts (checked : bool) (g : generator) (n : nat) : option (list reg) :=
  match n with
  | O => Some []
  | S n => match next checked g with None => None | Some (r, g) => match nexts checked g n with None => None | Some l => Some (r :: l) end end
  end.
(** value_tracker.rs:232-233 with 291-307: the generators for new qubits and bits are given the names of
    the qubits and of the bits, respectively. *)
Definition new_qubits (checked : bool) (qubits bits : list reg) (n : nat) : option (list reg) :=
  match new_generator checked "q" qubits with Some g => nexts checked g n | None => None end.
Definition new_bits (checked : bool) (qubits bits : list reg) (n : nat) : option (list reg) :=
  match new_generator checked "c" bits with Some g => nexts checked g n | None => None end.

(** ** value_tracker.rs:592-631, compute_final_permutation
    The index of the last register equal to [r] (later entries of a HashMap replace earlier ones). *)
Fixpoint position (r : reg) (l : list reg) (i : nat) : option nat :=
  match l with [] => None | x :: l => match position r l (S i) with Some j => Some j | None => if reg_dec x r then Some i else None end end.
Fixpoint extend (seen : list reg) (rs : list reg) : list reg :=
  match rs with
  | [] => seen
  | r :: rs => if in_dec reg_dec r seen then extend seen rs else extend (seen ++ [r]) rs
  end.
Fixpoint pair_up (declared : list reg) (l : list reg) : option (list (reg * reg)) :=
  match l with
  | [] => Some []
  | r :: l =>
      match position r declared 0 with
      | None => None                                          (* unwrap *)
      | Some i => match nth_error declared i, pair_up declared l with Some o, Some ps => Some ((r, o) :: ps) | _, _ => None end
      end
  end.
Definition compute_final_permutation (actual_outputs all_inputs : list reg) : option (list (reg * reg)) :=
  pair_up all_inputs (extend actual_outputs all_inputs).

(** ** decoder/wires.rs:419-466
    [tracker]: the registers in the order in which they were tracked. *)
Fixpoint index_of (r : reg) (tracker : list reg) (i : nat) : option nat :=
  match tracker with [] => None | x :: l => if reg_dec x r then Some i else index_of r l (S i) end.
(** BTreeMap::insert, sorted by key *)
Fixpoint tree_insert (k v : nat) (m : list (nat * nat)) : list (nat * nat) :=
  match m with
  | [] => [(k, v)]
  | (k', v') :: m => if Nat.ltb k k' then (k, v) :: (k', v') :: m else if Nat.eqb k k' then (k, v) :: m else (k', v') :: tree_insert k v m
  end.
Fixpoint reordered (tracker : list reg) (perm : list (reg * reg)) (m : list (nat * nat)) : option (list (nat * nat)) :=
  match perm with
  | [] => Some m
  | (i, o) :: perm =>
      match index_of i tracker 0, index_of o tracker 0 with
      | Some ip, Some op => reordered tracker perm (tree_insert op ip m)
      | _, _ => None                                          (* unwrap *)
      end
  end.
(** wires.rs:419-434, compute_output_permutation *)
Definition compute_output_permutation (tracker : list reg) (perm : list (reg * reg)) : option (list nat) :=
  match reordered tracker perm [] with Some m => Some (map snd m) | None => None end.
(** wires.rs:460-466, known_pytket_qubits: the registers in the order of the output. *)
Fixpoint get_all (tracker : list reg) (is : list nat) : option (list reg) :=
  match is with
  | [] => Some []
  | i :: is => match nth_error tracker i, get_all tracker is with Some r, Some l => Some (r :: l) | _, _ => None end
  end.
Definition known_pytket_qubits (tracker : list reg) (output_qubit_permutation : list nat) : option (list reg) :=
  get_all tracker (map (fun i => nth i output_qubit_permutation i) (seq 0 (List.length tracker))).
(** decoder.rs:264-326: the outputs are the first ones of these, one for each qubit of the signature. *)
Definition decoded_outputs (tracker : list reg) (perm : list (reg * reg)) (n : nat) : option (list reg) :=
  match compute_output_permutation tracker perm with
  | None => None
  | Some p => match known_pytket_qubits tracker p with Some l => Some (firstn n l) | None => None end
  end.
