(** Model of the GPU calls: qis-compiler/rust/gpu.rs.

    Two parts: the arguments of a call as bytes with their signature, and the calls of the GPU
    library with the validation of its version, the cache of function identifiers and the
    check of every response. *)
From Coq Require Import List Arith Bool ZArith String Ascii.
From Verif Require Import GlobModel.
Import ListNotations.

(** ** Arguments *)
(** LLVM values of the arguments: i1, i64 (as unsigned numbers), f64 (their 64 bits), and values
    of other types. *)
Inductive arg := ABool (b : bool) | AInt (z : Z) | AFloat (bits : Z) | AOther.
(** Types of the outputs. *)
Inductive oty := OInt | OFloat | OOther.

(** gpu.rs:875-888. *)
Fixpoint arg_types (l : list arg) : option string :=
  match l with
  | [] => Some EmptyString
  | a :: l =>
      match a, arg_types l with
      | ABool _, Some s => Some (String "b" s)
      | AInt _, Some s => Some (String "i" s)
      | AFloat _, Some s => Some (String "f" s)
      | _, _ => None
      end
  end.
(** gpu.rs:890-895. *)
Definition out_type (outs : list oty) : option string :=
  match outs with
  | [] => Some "v"%string
  | [OInt] => Some "i"%string
  | [OFloat] => Some "f"%string
  | _ => None
  end.
(** gpu.rs:867-898, generate_signature. *)
Definition generate_signature (args : list arg) (outs : list oty) : option string :=
  match arg_types args with
  | None => None
  | Some s => match out_type outs with
              | None => None
              | Some t => Some (append s (append ":" t))
              end
  end.

(** gpu.rs:928-941: the size of the blob. *)
Fixpoint size_of_args (l : list arg) (size : nat) : option nat :=
  match l with
  | [] => Some size
  | ABool _ :: l => size_of_args l (size + 1)
  | AInt _ :: l => size_of_args l (size + 8)
  | AFloat _ :: l => size_of_args l (size + 8)
  | AOther :: _ => None
  end.

(** Memory of the blob: bytes which are written or not yet. *)
Definition memory := list (option Z).
(** A store or a copy: writes bytes from an offset on; [None] out of bounds (undefined). *)
Fixpoint write_at (m : memory) (offset : nat) (bs : list Z) : option memory :=
  match offset, m with
  | 0, _ =>
      match bs, m with
      | [], _ => Some m
      | b :: bs, _ :: m => option_map (cons (Some b)) (write_at m 0 bs)
      | _ :: _, [] => None
      end
  | S o, x :: m => option_map (cons x) (write_at m o bs)
  | S _, [] => None
  end.

Section Endian.
(** The order of the bytes of the system: the lowest first or the highest first. *)
Variable big : bool.
Fixpoint low_bytes (n : nat) (z : Z) : list Z :=
  match n with 0 => [] | S n => (z mod 256)%Z :: low_bytes n (z / 256)%Z end.
Definition bytes8 (z : Z) : list Z := if big then rev (low_bytes 8 z) else low_bytes 8 z.

(** gpu.rs:945-999: writes the arguments from [offset] on. *)
Fixpoint write_args (l : list arg) (offset : nat) (m : memory) : option memory :=
  match l with
  | [] => Some m
  | ABool b :: l =>
      match write_at m offset [if b then 1%Z else 0%Z] with
      | Some m => write_args l (offset + 1) m | None => None end
  | AInt z :: l =>
      match write_at m offset (bytes8 z) with
      | Some m => write_args l (offset + 8) m | None => None end
  | AFloat z :: l =>
      match write_at m offset (bytes8 z) with
      | Some m => write_args l (offset + 8) m | None => None end
  | AOther :: _ => None
  end.
(** gpu.rs:920-1001, pack_arguments: the blob and its size. *)
Definition pack_arguments (l : list arg) : option (memory * nat) :=
  match size_of_args l 0 with
  | None => None
  | Some size =>
      match write_args l 0 (repeat None size) with Some m => Some (m, size) | None => None end
  end.
End Endian.

(** ** Calls *)
(** Calls of the library (gpu.rs:1-88) and of the panic of the simulator. *)
Inductive ext :=
| XValidate (major minor patch : Z)
| XInit (index : Z) | XDiscard (ref : Z) | XFunction (name : bytes)
| XCall (ref fn : Z) (size : nat) (blob : memory) (sig : string)
| XResult (ref len : Z)
| XGetError | XPanic (code : Z).

(** Functions that the compiler defines in the module. *)
Inductive gfn := FValidation | FLookup (name : bytes) | FResponse | FError.
Definition gfn_eqb (a b : gfn) : bool :=
  match a, b with
  | FValidation, FValidation | FResponse, FResponse | FError, FError => true
  | FLookup x, FLookup y => bytes_eqb x y
  | _, _ => false
  end.
(** Module::get_function. *)
Definition defined (m : list gfn) (f : gfn) : bool := existsb (gfn_eqb f) m.

(** Operations of the extension with their wires (hugr's ComputeOp). *)
Inductive gop :=
| GGetContext | GDispose | GLookupId (id : Z) | GLookupName (name : bytes)
| GCall (outs : list oty) | GRead (outs : list oty).

(** Values of the wires: contexts, functions, arguments, and the option of a context. *)
Inductive gval := GCtx (ref : Z) | GFn (id : Z) | GArg (a : arg) | GOpt (o : option Z).

(** *** Definitions of functions *)
(** gpu.rs:727-796, emit_panic_with_gpu_error. *)
Definition def_error (m : list gfn) : list gfn := if defined m FError then m else m ++ [FError].
(** gpu.rs:801-853, verify_gpu_call. *)
Definition def_response (m : list gfn) : list gfn :=
  if defined m FResponse then m else def_error (m ++ [FResponse]).
(** gpu.rs:638-716, emit_api_validation. *)
Definition def_validation (m : list gfn) : list gfn :=
  if defined m FValidation then m else def_response (m ++ [FValidation]).
(** gpu.rs:233-357, emit_lookup_by_name. *)
Definition def_lookup (name : bytes) (m : list gfn) : list gfn :=
  if defined m (FLookup name) then m
  else def_response (def_validation (m ++ [FLookup name])).
(** gpu.rs:566-584, emit_op: the functions which an operation needs. *)
Definition def_op (o : gop) (m : list gfn) : list gfn :=
  match o with
  | GGetContext => def_response (def_validation m)
  | GDispose => def_response m
  | GLookupId _ => m
  | GLookupName n => def_lookup n m
  | GCall _ => def_response m
  | GRead [] => m
  | GRead _ => def_response m
  end.

(** *** Running the code *)
Section Calls.
Variable World : Type.
(** The library: success of a call and the number it writes (external). *)
Variable lib : ext -> World -> World * (bool * Z).
Variable big : bool.

(** The thread-local variables, the world, and the calls so far (the last one first). *)
Record gstate := {
  g_validated : bool;                    (* gpu_validated, gpu.rs:647-649 *)
  g_ids : list (bytes * Z);              (* the caches that are set, gpu.rs:249-255 *)
  g_world : World;
  g_trace : list (ext * bool) }.

Inductive gres (X : Type) := GVal (x : X) (s : gstate) | GPanic (s : gstate) | GStuck.
Arguments GVal {X}. Arguments GPanic {X}. Arguments GStuck {X}.
Definition then_ {X Y} (r : gres X) (k : X -> gstate -> gres Y) : gres Y :=
  match r with GVal x s => k x s | GPanic s => GPanic s | GStuck => GStuck end.

Definition call_ext (x : ext) (s : gstate) : gstate * (bool * Z) :=
  let (w, r) := lib x (g_world s) in
  ({| g_validated := g_validated s; g_ids := g_ids s; g_world := w;
      g_trace := (x, fst r) :: g_trace s |}, r).

(** gpu.rs:727-796: the body of gpu_error_handler. *)
Definition run_error {X} (s : gstate) : gres X :=
  let (s, _) := call_ext XGetError s in
  let (s, _) := call_ext (XPanic 70002) s in GPanic s.
(** gpu.rs:821-839: the body of validate_gpu_response. *)
Definition run_response (ok : bool) (s : gstate) : gres unit :=
  if ok then GVal tt s else run_error s.
(** A call of the library and the check of its response. *)
Definition checked (x : ext) (s : gstate) : gres Z :=
  let (s, r) := call_ext x s in
  then_ (run_response (fst r) s) (fun _ s => GVal (snd r) s).

(** gpu.rs:657-707: the body of run_gpu_validation. *)
Definition run_validation (s : gstate) : gres unit :=
  if g_validated s then GVal tt s
  else then_ (checked (XValidate 0 1 0) s)
         (fun _ s => GVal tt {| g_validated := true; g_ids := g_ids s; g_world := g_world s;
                                g_trace := g_trace s |}).

Fixpoint cached (l : list (bytes * Z)) (name : bytes) : option Z :=
  match l with [] => None | (n, z) :: l => if bytes_eqb n name then Some z else cached l name end.

(** gpu.rs:268-343: the body of gpu_function_id_<name>. *)
Definition run_lookup (name : bytes) (s : gstate) : gres Z :=
  match cached (g_ids s) name with
  | Some z => GVal z s
  | None =>
      then_ (run_validation s) (fun _ s =>
      then_ (checked (XFunction name) s) (fun z s =>
      GVal z {| g_validated := g_validated s; g_ids := (name, z) :: g_ids s;
                g_world := g_world s; g_trace := g_trace s |}))
  end.

Fixpoint get_args (l : list gval) : option (list arg) :=
  match l with
  | [] => Some []
  | GArg a :: l => option_map (cons a) (get_args l)
  | _ :: _ => None
  end.

(** gpu.rs:566-584, emit_op: the code of an operation. [GStuck]: the compiler gives an error. *)
Definition run_gop (o : gop) (ins : list gval) (s : gstate) : gres (list gval) :=
  match o, ins with
  | GGetContext, [GArg (AInt i)] =>        (* gpu.rs:130-197 *)
      then_ (run_validation s) (fun _ s =>
      then_ (checked (XInit i) s) (fun r s => GVal [GOpt (Some r)] s))
  | GDispose, [GCtx r] => then_ (checked (XDiscard r) s) (fun _ s => GVal [] s)   (* :204-232 *)
  | GLookupId id, _ => GVal [GFn id] s     (* gpu.rs:359-371 *)
  | GLookupName n, _ => then_ (run_lookup n s) (fun z s => GVal [GFn z] s)
  | GCall outs, GCtx r :: GFn f :: args =>   (* gpu.rs:384-447 *)
      match get_args args with
      | None => GStuck
      | Some l =>
          match generate_signature l outs, pack_arguments big l with
          | Some sg, Some (blob, size) =>
              then_ (checked (XCall r f size blob sg) s) (fun _ s => GVal [GCtx r] s)
          | _, _ => GStuck
          end
      end
  | GRead [], [GCtx r] => GVal [GCtx r] s    (* gpu.rs:449-564 *)
  | GRead [OInt], [GCtx r] =>
      then_ (checked (XResult r 8) s) (fun z s => GVal [GCtx r; GArg (AInt z)] s)
  | GRead [OFloat], [GCtx r] =>
      then_ (checked (XResult r 8) s) (fun z s => GVal [GCtx r; GArg (AFloat z)] s)
  | _, _ => GStuck
  end.
End Calls.
Arguments GVal {World X}. Arguments GPanic {World X}. Arguments GStuck {World X}.
Arguments g_validated {World}. Arguments g_ids {World}. Arguments g_world {World}.
Arguments g_trace {World}.
