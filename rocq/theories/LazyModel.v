(** Model of the pass that replaces opaque booleans by "boolean or future" and
    measurements by lazy measurements,
    [tket-qsystem/src/replace_bools.rs], on straight-line programs.

    A source program is a list of operations; operands are numbered wires.
    Wires of type [tket.bool] may be used any number of times; after the
    replacement they are linear and the linearizer adds copies and discards.
    Control flow is left out, except for the conditionals the pass itself
    builds. *)

From Coq Require Import List Arith Bool.
Import ListNotations.

Section Lazy.
(** The quantum state, and the measurements of a qubit, destructive and with
    reset: outcome and new state. *)
Variable Q : Type.
Variable measure measure_reset : nat -> Q -> bool * Q.

(** tket/src/extension/bool.rs [BoolOp]: the binary ones. *)
Inductive bop := Beq | Band | Bor | Bxor.

Definition eval_bop (o : bop) (a b : bool) : bool :=
  match o with
  | Beq => Bool.eqb a b
  | Band => a && b
  | Bor => a || b
  | Bxor => xorb a b
  end.

(** Operations.  [x], [y] number the [tket.bool] wires, [n] the wires of the
    native type [bool_t()]; each in the order they are made. *)
Inductive instr :=
| ILoad (b : bool)                            (* a [ConstBool] constant *)
| IMakeOpaque (n : nat)
| IRead (x : nat)
| IBin (o : bop) (x y : nat)
| INot (x : nat)
| IMeasure (q : nat)                          (* MeasureFree, QSystem Measure *)
| IMeasureReset (q : nat)
| INative (f : list bool -> bool) (ns : list nat)   (* any operation on native booleans *)
| IQuant (f : list bool -> Q -> list bool * Q) (ns : list nat). (* any other quantum operation; [TketOp::Measure] yields a native boolean *)

(** ** The source program *)

Record src := Src { opaque : list bool; native : list bool; qstate : Q }.

Definition get (l : list bool) (n : nat) : bool := nth n l false.

Definition src_step (i : instr) (s : src) : src :=
  let o := opaque s in
  let n := native s in
  let q := qstate s in
  match i with
  | ILoad b => Src (o ++ [b]) n q
  | IMakeOpaque x => Src (o ++ [get n x]) n q
  | IRead x => Src o (n ++ [get o x]) q
  | IBin op x y => Src (o ++ [eval_bop op (get o x) (get o y)]) n q
  | INot x => Src (o ++ [negb (get o x)]) n q
  | IMeasure k => let (b, q') := measure k q in Src (o ++ [b]) n q'
  | IMeasureReset k => let (b, q') := measure_reset k q in Src (o ++ [b]) n q'
  | INative f xs => Src o (n ++ [f (map (get n) xs)]) q
  | IQuant f xs => let (r, q') := f (map (get n) xs) q in Src o (n ++ r) q'
  end.

Definition src_run (p : list instr) (s : src) : src := fold_left (fun s i => src_step i s) p s.

(** ** The target machine *)

(** replace_bools.rs:83-85 [bool_dest]: the sum of the native boolean and a
    future; a future is a handle. *)
Inductive sumv := Now (b : bool) | Later (h : nat).

(** The futures made so far: the outcome, and whether the handle is still to be
    consumed.  The outcome is fixed when the qubit is measured. *)
Definition futures := list (bool * bool).

Fixpoint kill (fs : futures) (h : nat) : futures :=
  match fs, h with
  | [], _ => []
  | (b, _) :: fs', 0 => (b, false) :: fs'
  | f :: fs', S h' => f :: kill fs' h'
  end.

(** tket-qsystem/src/extension/futures.rs:93-137: [Read], [Dup] and [Free] consume
    a handle; [None] when it was consumed before. *)
Definition future_read (h : nat) (fs : futures) : option (bool * futures) :=
  match nth_error fs h with
  | Some (b, true) => Some (b, kill fs h)
  | _ => None
  end.

Definition future_dup (h : nat) (fs : futures) : option ((nat * nat) * futures) :=
  match nth_error fs h with
  | Some (b, true) => Some ((length fs, S (length fs)), kill fs h ++ [(b, true); (b, true)])
  | _ => None
  end.

Definition future_free (h : nat) (fs : futures) : option futures :=
  match nth_error fs h with
  | Some (_, true) => Some (kill fs h)
  | _ => None
  end.

(** replace_bools.rs:87-110 [read_builder]: a conditional with a case for the
    boolean and a case that reads the future. *)
Definition read_builder (w : sumv) (fs : futures) : option (bool * futures) :=
  match w with
  | Now b => Some (b, fs)
  | Later h => future_read h fs
  end.

(** replace_bools.rs:112-118 [read_op_dest]. *)
Definition read_op_dest := read_builder.

(** replace_bools.rs:120-131 [make_opaque_op_dest]. *)
Definition make_opaque_op_dest (b : bool) : sumv := Now b.

(** replace_bools.rs:133-168 [binary_logic_op_dest]. *)
Definition binary_logic_op_dest (o : bop) (w1 w2 : sumv) (fs : futures) : option (sumv * futures) :=
  match read_builder w1 fs with
  | None => None
  | Some (b1, fs1) =>
      match read_builder w2 fs1 with
      | None => None
      | Some (b2, fs2) => Some (Now (eval_bop o b1 b2), fs2)
      end
  end.

(** replace_bools.rs:170-185 [not_op_dest]. *)
Definition not_op_dest (w : sumv) (fs : futures) : option (sumv * futures) :=
  match read_builder w fs with
  | None => None
  | Some (b, fs1) => Some (Now (negb b), fs1)
  end.

(** replace_bools.rs:187-204 [measure_dest] and 206-224 [measure_reset_dest]: a
    lazy measurement, tagged as a future. *)
Definition measure_dest (b : bool) (fs : futures) : sumv * futures :=
  (Later (length fs), fs ++ [(b, true)]).

(** The linearizer's copy and discard of the sum (hugr [Linearizer]), from the
    operations registered for futures in replace_bools.rs:293-314. *)
Definition copy_sum (w : sumv) (fs : futures) : option ((sumv * sumv) * futures) :=
  match w with
  | Now b => Some ((Now b, Now b), fs)
  | Later h =>
      match future_dup h fs with
      | Some ((h1, h2), fs') => Some ((Later h1, Later h2), fs')
      | None => None
      end
  end.

Definition discard_sum (w : sumv) (fs : futures) : option futures :=
  match w with
  | Now _ => Some fs
  | Later h => future_free h fs
  end.

(** One wire made into as many as there are uses. *)
Fixpoint fan (n : nat) (w : sumv) (fs : futures) : option (list sumv * futures) :=
  match n with
  | 0 => match discard_sum w fs with Some fs' => Some ([], fs') | None => None end
  | 1 => Some ([w], fs)
  | S n' =>
      match copy_sum w fs with
      | None => None
      | Some ((a, b), fs1) =>
          match fan n' b fs1 with
          | None => None
          | Some (l, fs2) => Some (a :: l, fs2)
          end
      end
  end.

(** ** The lowered program *)

(** The [tket.bool] operands of an operation. *)
Definition operands (i : instr) : list nat :=
  match i with
  | IRead x => [x]
  | IBin _ x y => [x; y]
  | INot x => [x]
  | _ => []
  end.

Definition makes_opaque (i : instr) : bool :=
  match i with
  | IRead _ | INative _ _ | IQuant _ _ => false
  | _ => true
  end.

(** The number of uses of a wire in the rest of the program and in the results. *)
Definition uses (x : nat) (p : list instr) (outs : list nat) : nat :=
  count_occ Nat.eq_dec (flat_map operands p ++ outs) x.

(** The operations, each with the number of copies its [tket.bool] output is
    made into.  [next] is the number of the next such wire. *)
Fixpoint lower (next : nat) (p : list instr) (outs : list nat) : list (instr * nat) :=
  match p with
  | [] => []
  | i :: p' =>
      if makes_opaque i
      then (i, uses next p' outs) :: lower (S next) p' outs
      else (i, 0) :: lower next p' outs
  end.

(** The copies of the inputs of the function. *)
Definition input_copies (n : nat) (p : list instr) (outs : list nat) : list nat :=
  map (fun x => uses x p outs) (seq 0 n).

(** Running the lowered program.  [wires] holds for each [tket.bool] wire of the
    source the copies that are not used yet. *)
Record mach := Mach { wires : list (list sumv); mnative : list bool; mq : Q; futs : futures }.

Fixpoint take (x : nat) (st : list (list sumv)) : option (sumv * list (list sumv)) :=
  match st, x with
  | (w :: l) :: st', 0 => Some (w, l :: st')
  | l :: st', S x' =>
      match take x' st' with
      | Some (w, st'') => Some (w, l :: st'')
      | None => None
      end
  | _, _ => None
  end.

Definition define (n : nat) (r : sumv) (fs : futures) (m : mach) (st : list (list sumv)) (q : Q) : option mach :=
  match fan n r fs with
  | None => None
  | Some (l, fs') => Some (Mach (st ++ [l]) (mnative m) q fs')
  end.

(** replace_bools.rs:337-357: the replacement of each operation. *)
Definition step (i : instr) (n : nat) (m : mach) : option mach :=
  let st := wires m in
  let q := mq m in
  match i with
  | ILoad b => define n (Now b) (futs m) m st q
  | IMakeOpaque x => define n (make_opaque_op_dest (get (mnative m) x)) (futs m) m st q
  | IRead x =>
      match take x st with
      | None => None
      | Some (w, st') =>
          match read_op_dest w (futs m) with
          | None => None
          | Some (b, fs) => Some (Mach st' (mnative m ++ [b]) q fs)
          end
      end
  | IBin o x y =>
      match take x st with
      | None => None
      | Some (w1, st1) =>
          match take y st1 with
          | None => None
          | Some (w2, st2) =>
              match binary_logic_op_dest o w1 w2 (futs m) with
              | None => None
              | Some (r, fs) => define n r fs m st2 q
              end
          end
      end
  | INot x =>
      match take x st with
      | None => None
      | Some (w, st') =>
          match not_op_dest w (futs m) with
          | None => None
          | Some (r, fs) => define n r fs m st' q
          end
      end
  | IMeasure k =>
      let (b, q') := measure k q in
      let (r, fs) := measure_dest b (futs m) in define n r fs m st q'
  | IMeasureReset k =>
      let (b, q') := measure_reset k q in
      let (r, fs) := measure_dest b (futs m) in define n r fs m st q'
  | INative f xs => Some (Mach st (mnative m ++ [f (map (get (mnative m)) xs)]) q (futs m))
  | IQuant f xs =>
      let (r, q') := f (map (get (mnative m)) xs) q in Some (Mach st (mnative m ++ r) q' (futs m))
  end.

Fixpoint run (p : list (instr * nat)) (m : mach) : option mach :=
  match p with
  | [] => Some m
  | (i, n) :: p' => match step i n m with Some m' => run p' m' | None => None end
  end.

(** The inputs, each made into its copies. *)
Fixpoint fan_inputs (ns : list nat) (ws : list sumv) (m : mach) : option mach :=
  match ns, ws with
  | n :: ns', w :: ws' =>
      match define n w (futs m) m (wires m) (mq m) with
      | Some m' => fan_inputs ns' ws' m'
      | None => None
      end
  | [], [] => Some m
  | _, _ => None
  end.

Fixpoint take_all (xs : list nat) (st : list (list sumv)) : option (list sumv * list (list sumv)) :=
  match xs with
  | [] => Some ([], st)
  | x :: xs' =>
      match take x st with
      | None => None
      | Some (w, st') =>
          match take_all xs' st' with
          | None => None
          | Some (ws, st'') => Some (w :: ws, st'')
          end
      end
  end.

(** The whole lowered function: results, and the machine at the end. *)
Definition run_lowered (p : list instr) (outs : list nat) (inputs : list sumv) (natives : list bool)
    (q : Q) (fs : futures) : option (list sumv * mach) :=
  match fan_inputs (input_copies (length inputs) p outs) inputs (Mach [] natives q fs) with
  | None => None
  | Some m =>
      match run (lower (length inputs) p outs) m with
      | None => None
      | Some m' =>
          match take_all outs (wires m') with
          | None => None
          | Some (ws, st) => Some (ws, Mach st (mnative m') (mq m') (futs m'))
          end
      end
  end.

(** ** Reading a borrow array *)

(** replace_bools.rs:235-291 [barray_get_dest] for elements that are replaced
    booleans: inside the range borrow the element, copy it, return one copy.
    [None]: a panic at run time, because the element is borrowed already. *)
Definition barray_get_dest (arr : list (option sumv)) (idx : nat) (fs : futures)
    : option ((option sumv * list (option sumv)) * futures) :=
  if idx <? length arr then
    match nth_error arr idx with
    | Some (Some e) =>
        match copy_sum e fs with
        | Some ((e1, e2), fs') => Some ((Some e2, firstn idx arr ++ Some e1 :: skipn (S idx) arr), fs')
        | None => None
        end
    | _ => None
    end
  else Some ((None, arr), fs).

End Lazy.
Arguments Src {Q}. Arguments opaque {Q}. Arguments native {Q}. Arguments qstate {Q}.
Arguments Mach {Q}. Arguments wires {Q}. Arguments mnative {Q}. Arguments mq {Q}. Arguments futs {Q}.
Arguments ILoad {Q}. Arguments IMakeOpaque {Q}. Arguments IRead {Q}. Arguments IBin {Q}. Arguments INot {Q}.
Arguments IMeasure {Q}. Arguments IMeasureReset {Q}. Arguments INative {Q}. Arguments IQuant {Q}.
Arguments src_run {Q}. Arguments src_step {Q}. Arguments run_lowered {Q}.
Arguments lower {Q}. Arguments uses {Q}. Arguments operands {Q}. Arguments makes_opaque {Q}.
Arguments input_copies {Q}. Arguments step {Q}. Arguments run {Q}. Arguments fan_inputs {Q}. Arguments define {Q}.
