(** Model of the constant strings, result tags and exit codes of the LLVM code:
    tket-qsystem/src/llvm/prelude.rs and the tags of llvm/result.rs, llvm/debug.rs.

    Strings are lists of bytes (numbers).  A module is the list of its global variables with
    their names and initialisers.  LLVM's constants are unique, so that the comparison of two
    constant strings in prelude.rs:181 is the comparison of their bytes. *)
From Coq Require Import List Arith Bool ZArith String Ascii Decimal DecimalString.
Import ListNotations.

Definition bytes := list Z.

(** Bytes of a literal. *)
Fixpoint of_string (s : string) : bytes :=
  match s with
  | EmptyString => []
  | String c s => Z.of_nat (nat_of_ascii c) :: of_string s
  end.

(** Name and initialiser of a global variable. *)
Definition globals := list (bytes * option bytes).

Definition bytes_eqb (a b : bytes) : bool := if list_eq_dec Z.eq_dec a b then true else false.

(** Module::get_global (inkwell). *)
Fixpoint get_global (m : globals) (name : bytes) : option (option bytes) :=
  match m with
  | [] => None
  | (n, i) :: m => if bytes_eqb n name then Some i else get_global m name
  end.

(** Outcomes of the emission: a value, an error, or a panic of the compiler. *)
Inductive emitted (X : Type) := EOk (x : X) | EErr | EPanic.
Arguments EOk {X}. Arguments EErr {X}. Arguments EPanic {X}.

(** Result::unwrap. *)
Definition unwrap {X} (r : emitted X) : emitted X := match r with EErr => EPanic | _ => r end.

Section Strings.
(** prelude.rs:165-171: the lower 32 bits of the hash of the bytes, printed; any function. *)
Variable hash : bytes -> bytes.
(** prelude.rs:173: the first ten characters of the string in UTF-8; any function. *)
Variable take10 : bytes -> bytes.

(** prelude.rs:174-178, the name for the number [i]. *)
Definition decimal (i : nat) : bytes := of_string (NilEmpty.string_of_uint (Nat.to_uint i)).
Definition name_prefix (symbol_prefix str content : bytes) : bytes :=
  symbol_prefix ++ take10 str ++ of_string "." ++ hash content.
Definition nth_name (p : bytes) (i : nat) : bytes := p ++ of_string "." ++ decimal i.

(** prelude.rs:176-197: the first name which is free or has this content already. [fuel]
    bounds the search (see [C73_total]). Gives the module and the name of the variable. *)
Fixpoint find_name (fuel i : nat) (p content : bytes) (m : globals) : option (globals * bytes) :=
  match fuel with
  | 0 => None
  | S fuel =>
      let name := nth_name p i in
      match get_global m name with
      | Some (Some v) => if bytes_eqb v content then Some (m, name) else find_name fuel (S i) p content m
      | Some None => find_name fuel (S i) p content m
      | None => Some (m ++ [(name, Some content)], name)
      end
  end.

(** prelude.rs:135-207, emit_global_string. *)
Definition emit_global_string (m : globals) (str symbol_prefix str_prefix : bytes)
  : emitted (globals * bytes) :=
  let tagged := str_prefix ++ str in
  if List.length tagged <? 256 then
    let content := Z.of_nat (List.length tagged) :: tagged in
    match find_name (S (List.length m)) 0 (name_prefix symbol_prefix str content) content m with
    | Some r => EOk r
    | None => EPanic
    end
  else EErr.

(** extension/result.rs:71-88, the kinds of results; arrays as well. *)
Inductive rkind := KBool | KInt | KUInt | KF64 | KArrBool | KArrInt | KArrUInt | KArrF64.

(** llvm/result.rs:89-129, the runtime function. *)
Definition print_symbol (k : rkind) : string :=
  match k with
  | KBool => "print_bool" | KInt => "print_int" | KUInt => "print_uint" | KF64 => "print_float"
  | KArrBool => "print_bool_arr" | KArrInt => "print_int_arr" | KArrUInt => "print_uint_arr"
  | KArrF64 => "print_float_arr"
  end.

(** llvm/result.rs:193-285, the type tags. *)
Definition type_tag (k : rkind) : string :=
  match k with
  | KBool => "BOOL:" | KInt => "INT:" | KUInt => "INT:" | KF64 => "FLOAT:"
  | KArrBool => "BOOLARR:" | KArrInt => "INTARR:" | KArrUInt => "INTARR:" | KArrF64 => "FLOATARR:"
  end.
Definition tag_prefix (k : rkind) : bytes := of_string (append "USER:" (type_tag k)).

(** llvm/result.rs:131-161, generate_global_tag, with the unwrap of its callers. Gives the
    module and the name of the variable with the tag; its first byte is loaded as the length
    (see [LlvmModel]). *)
Definition generate_global_tag (m : globals) (k : rkind) (tag : bytes) : emitted (globals * bytes) :=
  match tag with
  | [] => EErr
  | _ => emit_global_string m tag (of_string "res_") (tag_prefix k)
  end.
Definition result_tag (m : globals) (k : rkind) (tag : bytes) : emitted (globals * bytes) :=
  unwrap (generate_global_tag m k tag).

(** llvm/debug.rs:58-76: the tag of a state result; here errors are not unwrapped. *)
Definition state_tag (m : globals) (tag : bytes) : emitted (globals * bytes) :=
  match tag with
  | [] => EErr
  | _ => emit_global_string m tag (of_string "res_") (of_string "USER:STATE:")
  end.
End Strings.

(** ** Exit codes *)
(** A number of 32 bits, read as a signed one. *)
Definition i32 (z : Z) : Z := ((z + 2147483648) mod 4294967296 - 2147483648)%Z.

(** prelude.rs:31-73, emit_panic and emit_exit: the code given to the runtime, for
    a signal of 32 bits (u32; emit_const_error, prelude.rs:83-100). *)
Definition panic_code (signal : Z) : Z := i32 (signal + 1000).
Definition exit_code (signal : Z) : Z := i32 signal.
