(** Model of the operations of small extensions: tket-qsystem/src/extension/random.rs:48-188,
    tket/src/extension/debug.rs:21-161, global_phase.rs:23-103 and guppy.rs:14-40.  Versions,
    descriptions and the builders' methods are left out; hugr's try_from_name and its check of
    arguments against parameters are modelled after their documentation.

    The types are those in the signatures; [Named] stands for any other type without qubits or
    contexts in it. *)
From Coq Require Import NArith String List Bool.
Import ListNotations.
Local Open Scope string_scope.

Inductive typ := Qubit | Int (w : N) | Float | Rotation | Context | Option (t : typ)
               | Array (n : N) (t : typ) | Named (s : string).

(** random.rs:101-114 RandomOp. *)
Inductive rop := RandomInt | RandomFloat | RandomIntBounded | NewRNGContext | DeleteRNGContext
               | RandomAdvance.
Definition all_rops := [RandomInt; RandomFloat; RandomIntBounded; NewRNGContext; DeleteRNGContext;
                        RandomAdvance].

(** Operations: random.rs, debug.rs:100-105 StateResult, global_phase.rs:47 GlobalPhase,
    guppy.rs:20-37 drop, whose argument is the type of its input. *)
Inductive dop := ORandom (r : rop) | OState (tag : string) (n : N) | OPhase | ODrop (t : typ).

(** The arguments used here: hugr TypeArg String, BoundedNat and Runtime (debug.rs:128-131,
    lower_drops.rs:52). *)
Inductive targ := AStr (s : string) | ANat (n : N) | AType (t : typ).

(** The names of extensions and operations: random.rs:24, 117-119 (IntoStaticStr: the names of
    the variants), debug.rs:22, 40, global_phase.rs:24, 43, guppy.rs:15, 20. *)
Definition rop_name (r : rop) : string :=
  match r with
  | RandomInt => "RandomInt" | RandomFloat => "RandomFloat"
  | RandomIntBounded => "RandomIntBounded" | NewRNGContext => "NewRNGContext"
  | DeleteRNGContext => "DeleteRNGContext" | RandomAdvance => "RandomAdvance"
  end.
Definition ext_name (o : dop) : string * string :=
  match o with
  | ORandom r => ("tket.qsystem.random", rop_name r)
  | OState _ _ => ("tket.debug", "StateResult")
  | OPhase => ("tket.global_phase", "global_phase")
  | ODrop _ => ("tket.guppy", "drop")
  end.

(** debug.rs:127-132 type_args; drop takes its type (guppy.rs:29-30); the others take none. *)
Definition type_args (o : dop) : list targ :=
  match o with
  | ORandom _ | OPhase => []
  | OState tag n => [AStr tag; ANat n]
  | ODrop t => [AType t]
  end.

(** random.rs:96, 153-155: strum EnumString reads the names of the variants. *)
Definition rop_of_name (s : string) : option rop :=
  find (fun r => String.eqb (rop_name r) s) all_rops.

(** random.rs:153-155 from_def (EnumString), debug.rs:42-52, 78-82, 119-125, 152-160,
    global_phase.rs:61-83: reading an operation.  Drop has no reader of its own: it is found by
    name (guppy.rs:20) and has one type, tket-qsystem/src/lower_drops.rs:49-54.  Numbers
    are unbounded here, u64 in the code.  Operations
    without parameters are checked to have no arguments by hugr. *)
Definition load (ext name : string) (args : list targ) : option dop :=
  if String.eqb ext "tket.qsystem.random" then
    match rop_of_name name, args with Some r, [] => Some (ORandom r) | _, _ => None end
  else if String.eqb ext "tket.debug" then
    if String.eqb name "StateResult" then
      match args with [AStr tag; ANat n] => Some (OState tag n) | _ => None end
    else None
  else if String.eqb ext "tket.global_phase" then
    if String.eqb name "global_phase" then match args with [] => Some OPhase | _ => None end
    else None
  else if String.eqb ext "tket.guppy" then
    if String.eqb name "drop" then match args with [AType t] => Some (ODrop t) | _ => None end
    else None
  else None.

(** random.rs:121-151, debug.rs:59-76, global_phase.rs:56-58, guppy.rs:28-35 (the parameter of
    drop is any type): the signatures. *)
Definition signature (o : dop) : list typ * list typ :=
  match o with
  | ORandom RandomInt => ([Context], [Int 5; Context])
  | ORandom RandomFloat => ([Context], [Float; Context])
  | ORandom RandomIntBounded => ([Context; Int 5], [Int 5; Context])
  | ORandom RandomAdvance => ([Context; Int 6], [Context])
  | ORandom NewRNGContext => ([Int 6], [Option Context])
  | ORandom DeleteRNGContext => ([Context], [])
  | OState _ n => ([Array n Qubit], [Array n Qubit])
  | OPhase => ([Rotation], [])
  | ODrop t => ([t], [])
  end.
