(** Model of the operations that report results and of the code that prints arrays:
    tket-qsystem/src/extension/result.rs:60-375, tket-qsystem/src/llvm/array_utils.rs:66-282,
    tket-qsystem/src/llvm/result.rs:86-129 and 162-190, tket-qsystem/src/llvm/debug.rs:46-106.

    Memory is a list of blocks; a pointer is a block and a number of bytes.  Reading outside a
    block is undefined in LLVM and is None here.  The types of elements have the sizes that
    hugr-llvm gives them: i1 and i8 one byte, i16 two, i32 four, i64 and double eight.  Bytes are
    in the order of the targets that are used (little endian).  The tag, which is modelled in
    LlvmModel.v, is a number here. *)
From Coq Require Import String List Arith Bool NArith.
Import ListNotations.
Local Open Scope N_scope.

(** ** Operations: extension/result.rs *)

(** extension/result.rs:64-89 ResultOpDef. *)
Inductive rdef := DBool | DInt | DUInt | DF64 | DArrBool | DArrInt | DArrUInt | DArrF64.

(** extension/result.rs:219-237 SimpleArgs, ResultArgs; 240-248 ResultOp. *)
Inductive sargs := SBasic | SInt (w : N).
Inductive rargs := RSimple (s : sargs) | RArray (s : sargs) (n : N).
Record rop := { r_tag : string; r_def : rdef; r_args : rargs }.

(** Arguments of types (hugr): strings, numbers, and others (types and rows), which only matter
    because they are refused. *)
Inductive targ := TStr (s : string) | TNat (n : N) | TOther.
(** Parameters of types: strings, numbers below a bound, if there is one. *)
Inductive tparam := PStr | PNat (bound : option N).

(** extension/result.rs:106-114 simple_type_op. *)
Definition simple_type_op (d : rdef) : rdef :=
  match d with
  | DArrBool => DBool | DArrInt => DInt | DArrUInt => DUInt | DArrF64 => DF64
  | _ => d
  end.

(** extension/result.rs:116-124 array_type_op. *)
Definition array_type_op (d : rdef) : rdef :=
  match d with
  | DBool => DArrBool | DInt => DArrInt | DUInt => DArrUInt | DF64 => DArrF64
  | _ => d
  end.

(** extension/result.rs:127-137 type_params, with the tag that result_signature puts in front
    (161-167).  LOG_WIDTH_TYPE_PARAM of hugr is a number below 7. *)
Definition simple_params (d : rdef) : list tparam :=
  match d with DInt | DUInt => [PNat (Some 7)] | _ => [] end.
Definition type_params (d : rdef) : list tparam :=
  match d with
  | DBool | DF64 => []
  | DInt | DUInt => [PNat (Some 7)]
  | _ => PNat None :: simple_params (simple_type_op d)
  end.
Definition all_params (d : rdef) : list tparam := PStr :: type_params d.

(** extension/result.rs:251-265 _new_basic, _new_int. *)
Definition new_basic (t : string) (d : rdef) : rop :=
  {| r_tag := t; r_def := d; r_args := RSimple SBasic |}.
Definition new_int (t : string) (w : N) (d : rdef) : rop :=
  {| r_tag := t; r_def := d; r_args := RSimple (SInt w) |}.

(** extension/result.rs:279-292 array_op. *)
Definition array_op (o : rop) (n : N) : rop :=
  match r_args o with
  | RSimple s => {| r_tag := r_tag o; r_def := array_type_op (r_def o); r_args := RArray s n |}
  | RArray s _ => {| r_tag := r_tag o; r_def := r_def o; r_args := RArray s n |}
  end.

(** extension/result.rs:304-319 concrete_result_op_type_args. *)
Definition concrete_args (args : list targ) : option (string * option N * option N) :=
  match args with
  | [TStr t] => Some (t, None, None)
  | [TStr t; TNat n] => Some (t, Some n, None)
  | [TStr t; TNat n; TNat m] => Some (t, Some n, Some m)
  | _ => None
  end.

(** `width as u8` (extension/result.rs:146). *)
Definition as_u8 (n : N) : N := n mod 256.

(** extension/result.rs:140-159 instantiate.  The call of itself has one argument less: the fuel
    of three calls is never used up (AresProofs, instantiate_fuel). *)
Fixpoint instantiate_fuel (fuel : nat) (d : rdef) (args : list targ) : option rop :=
  match fuel with
  | O => None
  | S fuel =>
      match concrete_args args with
      | None => None
      | Some (tag, a, b) =>
          match a, b, d with
          | None, None, DBool | None, None, DF64 => Some (new_basic tag d)
          | Some w, None, DInt | Some w, None, DUInt => Some (new_int tag (as_u8 w) d)
          | Some size, _, _ =>
              let inner := match args with
                           | [t; _] => [t]
                           | [t; _; w] => [t; w]
                           | _ => []
                           end in
              match instantiate_fuel fuel (simple_type_op d) inner with
              | Some o => Some (array_op o size)
              | None => None
              end
          | _, _, _ => None
          end
      end
  end.
Definition instantiate (d : rdef) (args : list targ) : option rop :=
  instantiate_fuel 3 d args.

(** extension/result.rs:343-362 type_args. *)
Definition type_args (o : rop) : list targ :=
  TStr (r_tag o)
  :: match r_args o with RSimple _ => [] | RArray _ n => [TNat n] end
  ++ match r_args o with
     | RSimple (SInt w) | RArray (SInt w) _ => [TNat w]
     | _ => []
     end.

(** ** Memory *)
Definition ptr := (nat * nat)%type.

(** A block: bytes (on the heap or on the stack), or the structure of struct_1d_arr_t
    (array_utils.rs:220-236), whose four fields are not broken into bytes. *)
Inductive block :=
| BBytes (heap : bool) (l : list N)
| BStruct (x y : N) (data mask : ptr).
Definition mem := list block.

(** A number of k bytes in memory, and back. *)
Fixpoint le (k : nat) (v : N) : list N :=
  match k with O => [] | S k => (v mod 256) :: le k (v / 256) end.
Fixpoint unle (l : list N) : N :=
  match l with [] => 0 | b :: l => b + 256 * unle l end.

(** Bytes at a pointer; writing them. *)
Definition load (m : mem) (p : ptr) (n : nat) : option (list N) :=
  match nth_error m (fst p) with
  | Some (BBytes _ l) =>
      if Nat.leb (snd p + n) (length l) then Some (firstn n (skipn (snd p) l)) else None
  | _ => None
  end.
Fixpoint set_nth {A} (i : nat) (x : A) (l : list A) : list A :=
  match l, i with
  | [], _ => []
  | _ :: l, O => x :: l
  | y :: l, S i => y :: set_nth i x l
  end.
Definition store (m : mem) (p : ptr) (bs : list N) : option mem :=
  match nth_error m (fst p) with
  | Some (BBytes h l) =>
      if Nat.leb (snd p + length bs) (length l)
      then Some (set_nth (fst p)
                   (BBytes h (firstn (snd p) l ++ bs ++ skipn (snd p + length bs) l)) m)
      else None
  | _ => None
  end.

(** ** Arrays of hugr-llvm *)
(** Types of elements: integers with the logarithm of their width, floating-point numbers,
    booleans (sums of units), qubits. *)
Inductive elem := EInt (lw : N) | EFloat | EBool | EQubit.

(** Bytes of an element: hugr-llvm stores int<0> to int<3> as i8, int<4> as i16, int<5> as i32,
    int<6> as i64, booleans as i1; qubits are i64 (debug.rs:54). *)
Definition esize (e : elem) : nat :=
  match e with
  | EInt lw => if lw <=? 3 then 1%nat else if lw =? 4 then 2%nat
               else if lw =? 5 then 4%nat else 8%nat
  | EFloat => 8%nat
  | EBool => 1%nat
  | EQubit => 8%nat
  end.

(** An array value: the elements (stack lowering), or a fat pointer (heap lowering): the
    allocation and the number of elements before the first one. *)
Inductive aval := AStack (vals : list N) | AHeap (b : ptr) (off : nat).

(** The bytes of a list of elements. *)
Definition bytes_of (k : nat) (vals : list N) : list N := flat_map (le k) vals.

(** array_utils.rs:153-170 build_array_alloca: space for the elements, then the store. *)
Definition build_array_alloca (m : mem) (k : nat) (vals : list N) : option (mem * ptr) :=
  let p := (length m, 0%nat) in
  match store (m ++ [BBytes false (repeat 0 (length vals * k))]) p (bytes_of k vals) with
  | Some m => Some (m, p)
  | None => None
  end.

(** array_utils.rs:72-79 (stack) and 125-133 (heap) array_to_ptr. *)
Definition array_to_ptr (m : mem) (k : nat) (v : aval) : option (mem * ptr) :=
  match v with
  | AStack vals => build_array_alloca m k vals
  | AHeap b off => Some (m, (fst b, snd b + off * k)%nat)
  end.

(** array_utils.rs:191-196 ElemType, and the size of what struct_1d_arr_t makes the data pointer
    point to (220-225, 259-263). *)
Inductive etype := TInt | TUint | TFloat | TBool.
Definition dsize (t : etype) : nat :=
  match t with TInt | TUint | TFloat => 8%nat | TBool => 1%nat end.

(** array_utils.rs:243-282 struct_1d_arr_alloc: the structure, with the number of elements, one,
    the pointer, and a mask of zeros.  Its space is reserved before that of the mask; the order
    does not matter, and the mask comes first here. *)
Definition struct_1d_arr_alloc (m : mem) (len : N) (p : ptr) : option (mem * ptr) :=
  match build_array_alloca m 1 (repeat 0 (N.to_nat len)) with
  | Some (m, mask) => Some (m ++ [BStruct len 1 p mask], (length m, 0%nat))
  | None => None
  end.

(** llvm/result.rs:86-129 get_func_print, and debug.rs:86-97. *)
Inductive psym := PBoolArr | PIntArr | PUintArr | PFloatArr | PState.

(** What the runtime is given: the elements that it reads and the masks. *)
Inductive event := Printed (f : psym) (tag : N) (vals : list N) (mask : list N).

(** Lists of k bytes each. *)
Fixpoint chunks (n k : nat) (l : list N) : list (list N) :=
  match n with O => [] | S n => firstn k l :: chunks n k (skipn k l) end.

(** The runtime (outside this repository): it reads x * y elements through the data pointer and
    as many flags through the other one (array_utils.rs:203-215). *)
Definition runtime_print (f : psym) (t : etype) (tag : N) (m : mem) (p : ptr) : option event :=
  match nth_error m (fst p) with
  | Some (BStruct x y data mask) =>
      let n := N.to_nat (x * y) in
      match load m data (n * dsize t), load m mask n with
      | Some d, Some k => Some (Printed f tag (map unle (chunks n (dsize t) d)) k)
      | _, _ => None
      end
  | _ => None
  end.

(** array_utils.rs:81-101 (stack: a load of the whole array) and 135-150 (heap: a fat pointer
    without an offset) array_from_ptr. *)
Definition array_from_ptr (heap : bool) (m : mem) (k : nat) (p : ptr) (len : nat) : option aval :=
  if heap then Some (AHeap p 0)
  else match load m p (len * k) with
       | Some l => Some (AStack (map unle (chunks len k l)))
       | None => None
       end.

(** The symbol and the type of data of an operation: llvm/result.rs:86-129 and 240-272. *)
Definition print_of (d : rdef) : option (psym * etype) :=
  match d with
  | DArrBool => Some (PBoolArr, TBool)
  | DArrInt => Some (PIntArr, TInt)
  | DArrUInt => Some (PUintArr, TUint)
  | DArrF64 => Some (PFloatArr, TFloat)
  | _ => None
  end.

(** The code is refused (an error of the compiler), it is undefined, or it prints. *)
Inductive outcome := Refused | Undefined | Done (m : mem) (e : event).

(** The code for an array of the given length: array_to_ptr, struct_1d_arr_alloc, and the call.
    `length.try_into()?` to u32 refuses the others. *)
Definition print_call (f : psym) (t : etype) (k : nat) (tag len : N) (v : aval) (m : mem)
  : outcome :=
  if 4294967296 <=? len then Refused
  else match array_to_ptr m k v with
       | None => Undefined
       | Some (m, p) =>
           match struct_1d_arr_alloc m len p with
           | None => Undefined
           | Some (m, s) =>
               match runtime_print f t tag m s with
               | Some e => Done m e
               | None => Undefined
               end
           end
       end.

(** The type of the elements: extension/result.rs:93-104 arg_type. *)
Definition elem_of (d : rdef) (s : sargs) : elem :=
  match d, s with
  | (DBool | DArrBool), _ => EBool
  | (DF64 | DArrF64), _ => EFloat
  | _, SInt w => EInt w
  | _, SBasic => EInt 0
  end.

(** llvm/result.rs:162-190 build_print_array_call, from emit (240-272). *)
Definition emit_print (o : rop) (tag : N) (v : aval) (m : mem) : outcome :=
  match r_args o, print_of (r_def o) with
  | RArray s len, Some (f, t) => print_call f t (esize (elem_of (r_def o) s)) tag len v m
  | _, _ => Refused
  end.

(** llvm/debug.rs:46-106 emit_state_result: also gives the array back. *)
Definition emit_state (tag len : N) (v : aval) (m : mem) : outcome * aval :=
  (print_call PState TInt (esize EQubit) tag len v m, v).

(** The operation again and again in one function (a loop): what is reserved on the stack stays
    until the function returns. *)
Fixpoint emit_loop (n : nat) (o : rop) (tag : N) (v : aval) (m : mem) : option mem :=
  match n with
  | O => Some m
  | S n => match emit_print o tag v m with
           | Done m _ => emit_loop n o tag v m
           | _ => None
           end
  end.
