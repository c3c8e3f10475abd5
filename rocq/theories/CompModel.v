(** Model of the operations that call into other programs (WebAssembly, GPU):
    tket-qsystem/src/extension/classical_compute.rs:14-745 and classical_compute/{wasm,gpu}.rs,
    and of the search for a function in a package: tket/src/serialize.rs:62-271.

    Terms of hugr are: numbers, strings, and rows of types and row variables; lists that are
    joined are left out.  Extensions are strings.  Types are told apart by their extension, name
    and arguments. *)
From Coq Require Import String List Arith Bool.
Import ListNotations.
Local Open Scope string_scope.

(** ** Types *)
Inductive typ :=
| TBase (n : nat) (copy : bool)
| TCustom (ext name : string) (args : list arg) (copy : bool)
| TOption (t : typ)
with arg := ANat (n : nat) | AStr (s : string) | ARow (r : list elem)
with elem := ETyp (t : typ) | EVar (i : nat).

(** TypeRowRV and TypeRow of hugr. *)
Definition row_rv := list elem.
Definition row := list typ.
Definition to_rv (r : row) : row_rv := map ETyp r.
(** TypeRow::try_from: fails if there is a row variable. *)
Fixpoint of_rv (r : row_rv) : option row :=
  match r with
  | [] => Some []
  | ETyp t :: r => match of_rv r with Some r => Some (t :: r) | None => None end
  | EVar _ :: _ => None
  end.
(** TypeArg::from and TypeRowRV::try_from. *)
Definition row_to_arg (r : row_rv) : arg := ARow r.
Definition arg_to_row (a : arg) : option row_rv := match a with ARow r => Some r | _ => None end.

(** classical_compute.rs:75-98 ComputeType. *)
Inductive ctype := CModule | CContext | CFunc (ins outs : row_rv) | CResult (outs : row_rv).

(** classical_compute.rs:118-172 custom_type, func_custom_type, result_custom_type. *)
Definition custom_type (ext : string) (c : ctype) : typ :=
  match c with
  | CModule => TCustom ext "module" [] true
  | CContext => TCustom ext "context" [] false
  | CFunc ins outs => TCustom ext "func" [row_to_arg ins; row_to_arg outs] true
  | CResult outs => TCustom ext "result" [row_to_arg outs] false
  end.

(** classical_compute.rs:270-280 TryFrom<Type>, wasm.rs:116-157, gpu.rs:119-160
    TryFrom<CustomType>. *)
Definition of_type (ext : string) (t : typ) : option ctype :=
  match t with
  | TCustom e name args _ =>
      if negb (String.eqb e ext) then None
      else if String.eqb name "module" then Some CModule
      else if String.eqb name "context" then Some CContext
      else if String.eqb name "func" then
        match args with
        | [i; o] => match arg_to_row i, arg_to_row o with
                    | Some i, Some o => Some (CFunc i o)
                    | _, _ => None
                    end
        | _ => None
        end
      else if String.eqb name "result" then
        match args with
        | [o] => match arg_to_row o with Some o => Some (CResult o) | None => None end
        | _ => None
        end
      else None
  | _ => None
  end.

(** ** Operations *)
(** classical_compute.rs:177-225 ComputeOp; 250-257 the names. *)
Inductive cop :=
| GetContext | DisposeContext
| LookupById (id : nat) (ins outs : row_rv)
| LookupByName (name : string) (ins outs : row_rv)
| Call (ins outs : row)
| ReadResult (outs : row).
Inductive cdef := dget | ddispose | dby_id | dby_name | dcall | dread.

(** classical_compute.rs:571-581 compute_op_def. *)
Definition compute_op_def (o : cop) : cdef :=
  match o with
  | GetContext => dget
  | DisposeContext => ddispose
  | LookupById _ _ _ => dby_id
  | LookupByName _ _ _ => dby_name
  | Call _ _ => dcall
  | ReadResult _ => dread
  end.

(** classical_compute.rs:609-640 type_args. *)
Definition type_args (o : cop) : list arg :=
  match o with
  | GetContext => []
  | DisposeContext => []
  | LookupById id i o => [ANat id; row_to_arg i; row_to_arg o]
  | LookupByName n i o => [AStr n; row_to_arg i; row_to_arg o]
  | Call i o => [row_to_arg (to_rv i); row_to_arg (to_rv o)]
  | ReadResult o => [row_to_arg (to_rv o)]
  end.

(** classical_compute.rs:408-556 instantiate; None for its errors. *)
Definition instantiate (d : cdef) (args : list arg) : option cop :=
  match d, args with
  | dget, [] => Some GetContext
  | ddispose, [] => Some DisposeContext
  | dby_id, [ANat id; i; o] =>
      match arg_to_row i, arg_to_row o with
      | Some i, Some o => Some (LookupById id i o)
      | _, _ => None
      end
  | dby_name, [AStr n; i; o] =>
      match arg_to_row i, arg_to_row o with
      | Some i, Some o => Some (LookupByName n i o)
      | _, _ => None
      end
  | dcall, [i; o] =>
      match arg_to_row i, arg_to_row o with
      | Some i, Some o => match of_rv i, of_rv o with
                          | Some i, Some o => Some (Call i o)
                          | _, _ => None
                          end
      | _, _ => None
      end
  | dread, [o] =>
      match arg_to_row o with
      | Some o => match of_rv o with Some o => Some (ReadResult o) | None => None end
      | None => None
      end
  | _, _ => None
  end.

(** classical_compute.rs:287-390 init_signature, with the arguments put for the variables: the
    types of inputs and outputs.  usize is the base type 0. *)
Definition usize_t : typ := TBase 0 true.
Definition signature (ext : string) (o : cop) : row_rv * row_rv :=
  match o with
  | GetContext => ([ETyp usize_t], [ETyp (TOption (custom_type ext CContext))])
  | DisposeContext => ([ETyp (custom_type ext CContext)], [])
  | LookupById _ i o | LookupByName _ i o =>
      ([ETyp (custom_type ext CModule)], [ETyp (custom_type ext (CFunc i o))])
  | Call i o =>
      (ETyp (custom_type ext CContext) :: ETyp (custom_type ext (CFunc (to_rv i) (to_rv o)))
         :: to_rv i,
       [ETyp (custom_type ext (CResult (to_rv o)))])
  | ReadResult o =>
      ([ETyp (custom_type ext (CResult (to_rv o)))], ETyp (custom_type ext CContext) :: to_rv o)
  end.

(** ** Builder: classical_compute.rs:648-743 *)
Inductive built := Built (o : cop) | BuildError | Panic.

(** add_call (700-727): the rows come from the type of the function's wire. *)
Definition add_call (ext : string) (func : typ) : built :=
  match of_type ext func with
  | Some (CFunc i o) => match of_rv i, of_rv o with
                        | Some i, Some o => Built (Call i o)
                        | _, _ => BuildError
                        end
  | _ => Panic
  end.

(** add_read_result (730-743). *)
Definition add_read_result (ext : string) (result : typ) : built :=
  match of_type ext result with
  | Some (CResult o) => match of_rv o with Some o => Built (ReadResult o) | None => BuildError end
  | _ => Panic
  end.

(** ** Functions in packages: tket/src/serialize.rs *)

(** Children of a module: definitions with the number of their type parameters, and others
    (declarations, constants, aliases), which have no name here. *)
Inductive mchild := MDefn (name : string) (params : nat) | MOther.
Record module := { m_is_module : bool; m_children : list (nat * mchild) }.

Inductive lerror :=
| NonModuleRoot
| FunctionNotFound (available : list string)
| Parametric (n : nat)
| InvalidParent (n : nat).
Inductive lresult A := LOk (a : A) | LErr (e : lerror).
Arguments LOk {A}. Arguments LErr {A}.

(** serialize.rs:249-254 func_name. *)
Definition func_name (c : mchild) : string := match c with MDefn f _ => f | MOther => "" end.

(** circuit.rs:93-96 try_new with check_hugr (377-402), for children of modules. *)
Definition try_new (c : nat * mchild) : lresult nat :=
  match snd c with
  | MDefn _ 0 => LOk (fst c)
  | MDefn _ _ => LErr (Parametric (fst c))
  | MOther => LErr (InvalidParent (fst c))
  end.

(** serialize.rs:239-271 find_function: the entry point of the circuit. *)
Definition find_function (m : module) (name : string) : lresult nat :=
  if negb (m_is_module m) then LErr NonModuleRoot
  else match find (fun c => String.eqb (func_name (snd c)) name) (m_children m) with
       | None => LErr (FunctionNotFound (map (fun c => func_name (snd c)) (m_children m)))
       | Some c => try_new c
       end.

(** serialize.rs:208-231 find_function_in_modules: the number of the module and the entry
    point. *)
Fixpoint find_from (i : nat) (avail : list string) (ms : list module) (name : string)
  : lresult (nat * nat) :=
  match ms with
  | [] => LErr (FunctionNotFound avail)
  | m :: ms =>
      match find_function m name with
      | LOk n => LOk (i, n)
      | LErr (FunctionNotFound fns) => find_from (S i) (avail ++ fns) ms name
      | LErr e => LErr e
      end
  end.
Definition find_function_in_modules := find_from 0 [].
