(** What pytket operations mean: classical expressions, and when an interpretation of operations of the
    decoded circuit agrees with pytket (properties C40, C41, C56). Only data types of the model are used, and the
    table of the encoder to name the gates. *)
From Coq Require Import List Bool Arith.
From Verif Require Import OpsModel DecSpec DecModel.
Import ListNotations.

Section ClExpr.
(** Operators other than the five on bits, and constants, are left open. A value is its bits. *)
Variables (other : nat -> list (list bool) -> list bool) (int : nat -> list bool).
Definition bit (l : list bool) : bool := hd false l.
Definition cl_apply (o : clop) (args : list (list bool)) : list bool :=
  match o, args with
  | BitEq, [a; b] => [Bool.eqb (bit a) (bit b)]
  | BitNot, [a] => [negb (bit a)]
  | BitAnd, [a; b] => [bit a && bit b]
  | BitOr, [a; b] => [bit a || bit b]
  | BitXor, [a; b] => [xorb (bit a) (bit b)]
  | OtherOp n, _ => other n args
  | _, _ => []
  end.
Fixpoint assoc {A} (i : nat) (l : list (nat * A)) : option A := match l with [] => None | (j, a) :: l => if Nat.eqb j i then Some a else assoc i l end.
(** [bs]: the values of the bits that the command has. *)
Fixpoint cl_value (e : clexpr) (bs : list bool) (a : clarg) : list bool :=
  match a with
  | ABit i => match assoc i (bit_posn e) with Some j => [nth j bs false] | None => [] end
  | AReg i => match assoc i (reg_posn e) with Some js => map (fun j => nth j bs false) js | None => [] end
  | AInt n => int n
  | ASub o l => cl_apply o (map (cl_value e bs) l)
  end.
Fixpoint put_bit (i : nat) (b : bool) (bs : list bool) : list bool :=
  match bs, i with [], _ => [] | _ :: bs, 0 => b :: bs | x :: bs, Datatypes.S i => x :: put_bit i b bs end.
Fixpoint put_bits (is : list nat) (v : list bool) (bs : list bool) : list bool :=
  match is, v with i :: is, b :: v => put_bits is v (put_bit i b bs) | _, _ => bs end.
Definition cl_sem (e : clexpr) (bs : list bool) : list bool := put_bits (output_posn e) (cl_apply (c_op e) (map (cl_value e bs) (c_args e))) bs.
End ClExpr.

(** The inputs of a command's expression are its first bits, in order, and the output is the next bit. *)
Definition arity (o : clop) : nat := match o with BitNot => 1 | _ => 2 end.
Definition straight (e : clexpr) : Prop :=
  (forall n, c_op e <> OtherOp n) /\ c_args e = map ABit (seq 0 (arity (c_op e))) /\ (forall i, i < arity (c_op e) -> assoc i (bit_posn e) = Some i) /\
  reg_posn e = [] /\ output_posn e = [arity (c_op e)].
(** The same, but the arguments may be any of the first bits. *)
Definition direct (e : clexpr) : Prop :=
  (forall n, c_op e <> OtherOp n) /\ length (c_args e) = arity (c_op e) /\ (forall a, In a (c_args e) -> exists i, i < arity (c_op e) /\ a = ABit i) /\
  (forall i, i < arity (c_op e) -> assoc i (bit_posn e) = Some i) /\ reg_posn e = [] /\ output_posn e = [arity (c_op e)].

(** The operations on booleans. *)
Definition bool_fun (o : boolop) (l : list bool) : bool :=
  match o, l with
  | BEq, [a; b] => Bool.eqb a b
  | BNot, [a] => negb a
  | BAnd, [a; b] => a && b
  | BOr, [a; b] => a || b
  | BXor, [a; b] => xorb a b
  | _, _ => false
  end.

Section Agree.
Variables V P : Type.
Variables (tob : V -> bool) (ofb : bool -> V).
Variable run : hop -> list V -> list V -> list P -> list V * list V.
Variable psem : operation -> list V -> list V -> list P -> list V * list V.
Variables (other : nat -> list (list bool) -> list bool) (int : nat -> list bool).
(** Both sides give what the operations stand for: a pytket gate does what the operation does that the
    encoder writes as this gate. *)
Record agree : Prop := {
  a_inj : forall v, ofb (tob v) = v;
  a_bool : forall o bs, length bs = match o with BNot => 1 | _ => 2 end -> run (HBool o) [] bs [] = ([], [ofb (bool_fun o (map tob bs))]);
  a_noop : forall q, run HNoop [q] [] [] = ([q], []);
  a_barrier : forall a b qs bs, run (HBarrier a b) qs bs [] = (qs, bs);
  a_tket : forall o qs ps, length qs = qubits_in o -> length ps = params_in o ->
    length (fst (run (HTket o) qs [] ps)) = qubits_out o /\ length (snd (run (HTket o) qs [] ps)) = bools_out o;
  a_opaque : forall o qs bs ps, run (HOpaque o) qs bs ps = psem o qs bs ps;
  p_len : forall o qs bs ps, length (fst (psem o qs bs ps)) = length qs /\ length (snd (psem o qs bs ps)) = length bs;
  p_gate : forall o t x qs bs ps, encode_tket_op o = Some t -> o <> MeasureFree -> length qs = qubits_in o -> length bs = bools_out o -> length ps = params_in o ->
    psem {| o_type := t; o_expr := x |} qs bs ps = run (HTket o) qs [] ps;
  p_idle : forall t x qs bs, t = Jnoop \/ t = JBarrier -> psem {| o_type := t; o_expr := x |} qs bs [] = (qs, bs);
  p_clexpr : forall e qs bs, psem {| o_type := JClExpr; o_expr := Some e |} qs bs [] = (qs, map ofb (cl_sem other int e (map tob bs))) }.
End Agree.
Arguments agree {V P}.

(** Qubits, bits and parameters of pytket's gates. *)
Definition pytket_arity (t : optype) : option (nat * nat * nat) :=
  match t with
  | JH | JT | JTdg | JS | JSdg | JV | JVdg | JX | JY | JZ | JReset | Jnoop => Some (1, 0, 0)
  | JRx | JRy | JRz => Some (1, 0, 1)
  | JCX | JCY | JCZ => Some (2, 0, 0)
  | JCRz => Some (2, 0, 1)
  | JCCX => Some (3, 0, 0)
  | JMeasure => Some (1, 1, 0)
  | _ => None
  end.
(** A classical expression with an operator that BoolOp does not have. *)
Definition foreign (o : operation) : Prop := o_type o = JClExpr -> forall e, o_expr o = Some e -> exists n, c_op e = OtherOp n.
(** An operation that is applied to as many arguments as it needs; barriers have no bits. *)
Definition well_applied (o : operation) (nq nb np : nat) : Prop :=
  match o_type o with
  | JBarrier => nb = 0
  | t => match pytket_arity t with Some n => n = (nq, nb, np) | None => True end
  end.
