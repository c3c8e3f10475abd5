(** Model of the LLVM code of operations: tket-qsystem/src/llvm/{qsystem,futures,random,utils,
    result}.rs and tket/src/llvm/{rotation,bool}.rs.

    The target is a small language with the instructions that these files build: registers,
    calls of the runtime, comparisons, selections, and two kinds of branches (one that skips a
    call, one that ends in a panic).  Programs are straight lines of operations; arrays,
    containers, function calls and the mailboxes of hugr-llvm (which carry values between
    operations) are not modelled. *)
From Coq Require Import List Arith Bool ZArith String.
From Verif Require Import GlobModel.
Import ListNotations.

(** ** Values *)
(** Numbers of the type f64: not a number, infinite, or finite with the given bits. *)
Inductive flt := FNan | FInf (neg : bool) | FFin (bits : Z).

(** Values of LLVM: i64 and i32, i1, sums of units (bool of the prelude), f64, options of
    qubits, of rotations and of contexts, contexts (no data), and pointers to constant strings
    with what they point to. *)
Inductive value :=
| VInt (z : Z) | VBit (b : bool) | VBool (b : bool) | VFlt (f : flt)
| VOptQ (o : option Z) | VOptR (o : option flt) | VOptC (b : bool) | VCtx
| VStr (s : bytes).

(** Functions of the runtime: llvm/qsystem.rs:48-73, futures.rs:88-116, random.rs:99-138,
    utils.rs:35-42, result.rs:89-129, prelude.rs:31-73. *)
Inductive rfun :=
| CRz | CRzz | CRxy | CQAlloc | CQFree | CMeasure | CLazyMeasureLeaked | CLazyMeasure | CReset
| CInc | CDec | CReadBool | CReadUint
| CRandomInt | CRandomFloat | CRandomRng | CRandomAdvance | CRandomSeed
| CShot | CPrint (k : rkind) | CPanic.

(** ** Instructions *)
Inductive operand := OReg (r : nat) | OVal (v : value) | OGlobal (name : bytes).

Inductive fpred := OEQ | UNO.
Inductive bitop := And | Or | Xor | IEq.

Inductive instr :=
| ICall (f : rfun) (args : list operand) (res : option nat)
| ISelect (r : nat) (c a b : operand)
| INotMax (r : nat) (a : operand)             (* icmp ne with 2^64 - 1 *)
| IFcmp (r : nat) (p : fpred) (a b : operand)
| IBit (r : nat) (o : bitop) (a b : operand)
| INot (r : nat) (a : operand)
| IFadd (r : nat) (a b : operand)
| IOptQ (r : nat) (c a : operand)             (* build_option of hugr-llvm *)
| IOptR (r : nat) (c a : operand)             (* build_tag twice and a selection *)
| IUnwrapQ (r : nat) (a : operand)            (* unwrapping an option (hugr-llvm): panics *)
| ITag (r : nat) (a : operand)                (* tag of a sum of units, as i1 *)
| ILen (r : nat) (a : operand)                (* first byte of a string, extended to i64 *)
| ICallIf (c : operand) (f : rfun) (args : list operand)   (* block that is skipped or not *)
| IPanicUnless (c : operand).                 (* block that panics *)

(** ** Operations *)
Inductive fty := FtBool | FtUint.

Inductive op :=
(* extension/qsystem.rs, QSystemOp, and the runtime barrier *)
| QRz | QZZPhase | QPhasedX | QMeasure | QMeasureReset | QLazyMeasure | QLazyMeasureLeaked
| QLazyMeasureReset | QReset | QTryQAlloc | QQFree | QBarrier
(* extension/futures.rs *)
| FDup (t : fty) | FFree (t : fty) | FRead (t : fty)
(* extension/random.rs *)
| RInt | RFloat | RBounded | RAdvance | RNew | RDelete
(* tket/src/extension/bool.rs *)
| BRead | BMake | BNot | BAnd | BOr | BXor | BEq
(* tket/src/extension/rotation.rs *)
| TAdd | TFrom | TFromUnchecked | TTo
(* extension/utils.rs, extension/result.rs, and unwrapping a qubit (prelude) *)
| GetShot | Res (k : rkind) (tag : bytes) | UnwrapQ.

(** llvm/qsystem.rs:288-293: the handle which says that there is no qubit left. *)
Definition max_qb : Z := 18446744073709551615.

Section Emit.
Variable hash : bytes -> bytes.
Variable take10 : bytes -> bytes.

(** What an emitter gives: instructions, outputs, next free register, module. *)
Definition code := (list instr * list operand * nat * globals)%type.

(** llvm/qsystem.rs:127-145, emit_impl; indexing panics. *)
Fixpoint nths (l : list operand) (is : list nat) : option (list operand) :=
  match is with
  | [] => Some []
  | i :: is => match nth_error l i, nths l is with Some x, Some xs => Some (x :: xs) | _, _ => None end
  end.
Definition emit_impl (f : rfun) (ii oi : list nat) (ins : list operand) (n : nat) (m : globals)
  : emitted code :=
  match nths ins ii, nths ins oi with
  | Some xs, Some ys => EOk ([ICall f xs None], ys, n, m)
  | _, _ => EPanic
  end.

(** llvm/random.rs:74-93, emit_op. *)
Definition emit_random (f : rfun) (ii : list nat) (ins : list operand) (n : nat) (m : globals)
  : emitted code :=
  match nths ins ii with
  | Some xs => EOk ([ICall f xs (Some n)], [OReg n; OVal VCtx], S n, m)
  | None => EPanic
  end.

(** tket/src/llvm/rotation.rs:74-113, emit_from_halfturns: the flag is in register [n + 5]. *)
Definition halfturns_ok (a : operand) (n : nat) : list instr :=
  [IFcmp n OEQ a (OVal (VFlt (FInf false)));
   IFcmp (n + 1) OEQ a (OVal (VFlt (FInf true)));
   IFcmp (n + 2) UNO a (OVal (VFlt (FFin 0)));
   IBit (n + 3) Or (OReg n) (OReg (n + 1));
   IBit (n + 4) Or (OReg (n + 3)) (OReg (n + 2));
   INot (n + 5) (OReg (n + 4))].

(** llvm/result.rs:193-249, the results that are not arrays. *)
Definition emit_result (k : rkind) (tag : bytes) (ins : list operand) (n : nat) (m : globals)
  : emitted code :=
  match result_tag hash take10 m k tag, ins with
  | EOk (m, g), [v] =>
      match k with
      | KBool => EOk ([ILen n (OGlobal g); ITag (n + 1) v;
                       ICall (CPrint k) [OGlobal g; OReg n; OReg (n + 1)] None], [], n + 2, m)
      | KInt | KUInt | KF64 =>
          EOk ([ILen n (OGlobal g); ICall (CPrint k) [OGlobal g; OReg n; v] None], [], n + 1, m)
      | _ => EErr   (* arrays: not modelled *)
      end
  | EOk _, _ => EErr
  | EErr, _ => EErr
  | EPanic, _ => EPanic
  end.

(** llvm/qsystem.rs:148-307 emit, :310-341 reset_if_qb and :37-43 (barrier), futures.rs:118-185,
    random.rs:96-152, utils.rs:28-51, tket/src/llvm/bool.rs:33-94, rotation.rs:115-189. *)
Definition emit (o : op) (ins : list operand) (n : nat) (m : globals) : emitted code :=
  match o, ins with
  | QRz, _ => emit_impl CRz [0; 1] [0] ins n m
  | QZZPhase, _ => emit_impl CRzz [0; 1; 2] [0; 1] ins n m
  | QPhasedX, _ => emit_impl CRxy [0; 1; 2] [0] ins n m
  | QMeasure, [q] =>
      EOk ([ICall CMeasure [q] (Some n); ISelect (n + 1) (OReg n) (OVal (VBool true)) (OVal (VBool false));
            ICall CQFree [q] None], [OReg (n + 1)], n + 2, m)
  | QMeasureReset, [q] =>
      EOk ([ICall CMeasure [q] (Some n); ISelect (n + 1) (OReg n) (OVal (VBool true)) (OVal (VBool false));
            ICall CReset [q] None], [q; OReg (n + 1)], n + 2, m)
  | QLazyMeasure, [q] => EOk ([ICall CLazyMeasure [q] (Some n); ICall CQFree [q] None], [OReg n], n + 1, m)
  | QLazyMeasureLeaked, [q] =>
      EOk ([ICall CLazyMeasureLeaked [q] (Some n); ICall CQFree [q] None], [OReg n], n + 1, m)
  | QLazyMeasureReset, [q] =>
      EOk ([ICall CLazyMeasure [q] (Some n); ICall CReset [q] None], [q; OReg n], n + 1, m)
  | QReset, _ => emit_impl CReset [0] [0] ins n m
  | QTryQAlloc, [] =>
      EOk ([ICall CQAlloc [] (Some n); INotMax (n + 1) (OReg n);
            ICallIf (OReg (n + 1)) CReset [OReg n]; IOptQ (n + 2) (OReg (n + 1)) (OReg n)],
           [OReg (n + 2)], n + 3, m)
  | QQFree, _ => emit_impl CQFree [0] [] ins n m
  | QBarrier, _ => EOk ([], ins, n, m)
  | FDup _, [f] => EOk ([ICall CInc [f] None], [f; f], n, m)
  | FFree _, [f] => EOk ([ICall CDec [f] None], [], n, m)
  | FRead FtBool, [f] =>
      EOk ([ICall CReadBool [f] (Some n); ICall CDec [f] None;
            ISelect (n + 1) (OReg n) (OVal (VBool true)) (OVal (VBool false))], [OReg (n + 1)], n + 2, m)
  | FRead FtUint, [f] => EOk ([ICall CReadUint [f] (Some n); ICall CDec [f] None], [OReg n], n + 1, m)
  | RInt, _ => emit_random CRandomInt [] ins n m
  | RFloat, _ => emit_random CRandomFloat [] ins n m
  | RBounded, _ => emit_random CRandomRng [1] ins n m
  | RAdvance, [c; d] => EOk ([ICall CRandomAdvance [d] None], [c], n, m)
  | RNew, [s] => EOk ([ICall CRandomSeed [s] None], [OVal (VOptC true)], n, m)
  | RDelete, _ => EOk ([], [], n, m)
  | BRead, [b] => EOk ([ISelect n b (OVal (VBool true)) (OVal (VBool false))], [OReg n], n + 1, m)
  | BMake, [b] => EOk ([ITag n b], [OReg n], n + 1, m)
  | BNot, [b] => EOk ([INot n b], [OReg n], n + 1, m)
  | BAnd, [a; b] => EOk ([IBit n And a b], [OReg n], n + 1, m)
  | BOr, [a; b] => EOk ([IBit n Or a b], [OReg n], n + 1, m)
  | BXor, [a; b] => EOk ([IBit n Xor a b], [OReg n], n + 1, m)
  | BEq, [a; b] => EOk ([IBit n IEq a b], [OReg n], n + 1, m)
  | TAdd, [a; b] => EOk ([IFadd n a b], [OReg n], n + 1, m)
  | TFromUnchecked, [a] => EOk (halfturns_ok a n ++ [IPanicUnless (OReg (n + 5))], [a], n + 6, m)
  | TFrom, [a] => EOk (halfturns_ok a n ++ [IOptR (n + 6) (OReg (n + 5)) a], [OReg (n + 6)], n + 7, m)
  | TTo, [a] => EOk ([], [a], n, m)
  | GetShot, _ => EOk ([ICall CShot [] (Some n)], [OReg n], n + 1, m)
  | Res k tag, _ => emit_result k tag ins n m
  | UnwrapQ, [a] => EOk ([IUnwrapQ n a], [OReg n], n + 1, m)
  | _, _ => EErr
  end.

(** A program: operations with the wires of their inputs and outputs. *)
Definition prog := list (op * list nat * list nat).

Fixpoint lookup {X} (env : list (nat * X)) (w : nat) : option X :=
  match env with [] => None | (v, x) :: env => if Nat.eqb v w then Some x else lookup env w end.
Fixpoint lookups {X} (env : list (nat * X)) (ws : list nat) : option (list X) :=
  match ws with
  | [] => Some []
  | w :: ws => match lookup env w, lookups env ws with Some x, Some xs => Some (x :: xs) | _, _ => None end
  end.
(** Outputs: RowPromise::finish of hugr-llvm, which needs the right number of values. *)
Definition bind {X} (ws : list nat) (xs : list X) (env : list (nat * X)) : option (list (nat * X)) :=
  if Nat.eqb (List.length ws) (List.length xs) then Some (combine ws xs ++ env) else None.

(** The operations one after the other, with the operands for the wires (hugr-llvm). *)
Fixpoint emit_prog (p : prog) (env : list (nat * operand)) (n : nat) (m : globals)
  : emitted (list instr * list (nat * operand) * nat * globals) :=
  match p with
  | [] => EOk ([], env, n, m)
  | (o, ins, outs) :: p =>
      match lookups env ins with
      | None => EErr
      | Some xs =>
          match emit o xs n m with
          | EErr => EErr
          | EPanic => EPanic
          | EOk (is, ys, n, m) =>
              match bind outs ys env with
              | None => EErr
              | Some env =>
                  match emit_prog p env n m with
                  | EOk (is', env, n, m) => EOk (is ++ is', env, n, m)
                  | r => r
                  end
              end
          end
      end
  end.
End Emit.

(** ** Running the instructions *)
Section Run.
(** The runtime: its state, and what a call does (external; [None]: the arguments do not have
    the types of the function). *)
Variable D : Type.
Variable call : rfun -> list value -> D -> option (D * value).
(** Addition of f64 (external). *)
Variable fadd : flt -> flt -> flt.
(** The globals of the finished module. *)
Variable m : globals.

Definition regs := nat -> value.
Definition upd (s : regs) (r : nat) (v : value) : regs := fun i => if Nat.eqb i r then v else s i.

Definition eval (s : regs) (a : operand) : option value :=
  match a with
  | OReg r => Some (s r)
  | OVal v => Some v
  | OGlobal g => match get_global m g with Some (Some b) => Some (VStr b) | _ => None end
  end.
Fixpoint evals (s : regs) (l : list operand) : option (list value) :=
  match l with
  | [] => Some []
  | a :: l => match eval s a, evals s l with Some v, Some vs => Some (v :: vs) | _, _ => None end
  end.

Definition fcmp (p : fpred) (a b : flt) : bool :=
  match p, a, b with
  | OEQ, FInf x, FInf y => Bool.eqb x y
  | OEQ, FFin x, FFin y => Z.eqb x y    (* not for zeros of different sign; not needed *)
  | OEQ, _, _ => false
  | UNO, FNan, _ => true
  | UNO, _, FNan => true
  | UNO, _, _ => false
  end.
Definition bit (o : bitop) (a b : bool) : bool :=
  match o with And => a && b | Or => a || b | Xor => xorb a b | IEq => Bool.eqb a b end.

(** Running goes on, or has ended with a panic. *)
Inductive outcome (X : Type) := Going (x : X) (d : D) | Ended (d : D).
Arguments Going {X}. Arguments Ended {X}.

Definition panic (d : D) : option (outcome regs) :=
  match call CPanic [] d with Some (d, _) => Some (Ended d) | None => None end.

(** [None] for instructions that are not typed. *)
Definition step (i : instr) (s : regs) (d : D) : option (outcome regs) :=
  match i with
  | ICall f args res =>
      match evals s args with
      | None => None
      | Some vs =>
          match call f vs d with
          | Some (d, v) => Some (Going (match res with Some r => upd s r v | None => s end) d)
          | None => None
          end
      end
  | ISelect r c a b =>
      match eval s c, eval s a, eval s b with
      | Some (VBit c), Some x, Some y => Some (Going (upd s r (if c then x else y)) d)
      | _, _, _ => None
      end
  | INotMax r a =>
      match eval s a with
      | Some (VInt z) => Some (Going (upd s r (VBit (negb (Z.eqb z max_qb)))) d)
      | _ => None
      end
  | IFcmp r p a b =>
      match eval s a, eval s b with
      | Some (VFlt x), Some (VFlt y) => Some (Going (upd s r (VBit (fcmp p x y))) d)
      | _, _ => None
      end
  | IBit r o a b =>
      match eval s a, eval s b with
      | Some (VBit x), Some (VBit y) => Some (Going (upd s r (VBit (bit o x y))) d)
      | _, _ => None
      end
  | INot r a =>
      match eval s a with Some (VBit x) => Some (Going (upd s r (VBit (negb x))) d) | _ => None end
  | IFadd r a b =>
      match eval s a, eval s b with
      | Some (VFlt x), Some (VFlt y) => Some (Going (upd s r (VFlt (fadd x y))) d)
      | _, _ => None
      end
  | IOptQ r c a =>
      match eval s c, eval s a with
      | Some (VBit c), Some (VInt z) => Some (Going (upd s r (VOptQ (if c then Some z else None))) d)
      | _, _ => None
      end
  | IOptR r c a =>
      match eval s c, eval s a with
      | Some (VBit c), Some (VFlt f) => Some (Going (upd s r (VOptR (if c then Some f else None))) d)
      | _, _ => None
      end
  | IUnwrapQ r a =>
      match eval s a with
      | Some (VOptQ (Some z)) => Some (Going (upd s r (VInt z)) d)
      | Some (VOptQ None) => panic d
      | _ => None
      end
  | ITag r a =>
      match eval s a with Some (VBool b) => Some (Going (upd s r (VBit b)) d) | _ => None end
  | ILen r a =>
      match eval s a with
      | Some (VStr (b :: _)) => Some (Going (upd s r (VInt b)) d)
      | _ => None
      end
  | ICallIf c f args =>
      match eval s c, evals s args with
      | Some (VBit true), Some vs =>
          match call f vs d with Some (d, _) => Some (Going s d) | None => None end
      | Some (VBit false), Some _ => Some (Going s d)
      | _, _ => None
      end
  | IPanicUnless c =>
      match eval s c with
      | Some (VBit true) => Some (Going s d)
      | Some (VBit false) => panic d
      | _ => None
      end
  end.

Fixpoint exec (is : list instr) (s : regs) (d : D) : option (outcome regs) :=
  match is with
  | [] => Some (Going s d)
  | i :: is =>
      match step i s d with
      | Some (Going s d) => exec is s d
      | r => r
      end
  end.
End Run.
Arguments Going {D X}. Arguments Ended {D X}.
