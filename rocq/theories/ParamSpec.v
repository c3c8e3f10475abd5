(** What expressions mean, without the parser. *)
From Coq Require Import List Bool Arith String Ascii.
From Verif Require Import ParamModel.
Import ListNotations.
Local Open Scope list_scope.

Definition blank (w : str) : Prop := Forall (fun c => c = " "%char \/ c = ascii_of_nat 9) w.
Definition digit (c : ascii) : Prop := In c (lit "0123456789").
Definition letter (c : ascii) : Prop := In c (lit "abcdefghijklmnopqrstuvwxyzABCDEFGHIJKLMNOPQRSTUVWXYZ").
(** Numbers without a sign: 0, 12, 1.50, 2., 1e5, 3.2E-7, but not 007 or .5. *)
Definition integer (s : str) : Prop := s = lit "0" \/ exists c r, s = c :: r /\ digit c /\ c <> "0"%char /\ Forall digit r.
Definition fraction (s : str) : Prop := s = [] \/ exists r, s = "."%char :: r /\ Forall digit r.
Definition exponent (s : str) : Prop :=
  s = [] \/ exists e sg r, s = e :: sg ++ r /\ (e = "e"%char \/ e = "E"%char) /\ (sg = [] \/ sg = lit "+" \/ sg = lit "-") /\ r <> [] /\ Forall digit r.
Definition number (s : str) : Prop := exists i f e, s = i ++ f ++ e /\ integer i /\ fraction f /\ exponent e.
Definition name (s : str) : Prop := exists c r, s = c :: r /\ letter c /\ Forall (fun c => letter c \/ digit c \/ c = "_"%char) r.

(** Expressions as they are written, with the white space. *)
Inductive written : Type :=
  | CNum (s : str)
  | CVar (x : str)
  | CParen (w1 : str) (c : written) (w2 : str)
  | CCall1 (f w0 w1 : str) (a : written) (w2 : str)
  | CCall2 (f w0 w1 : str) (a : written) (w2 w3 : str) (b : written) (w4 : str)
  | CImplicit (n w : str) (c : written)
  | CNeg (w : str) (c : written)
  | CInfix (o : infix) (a : written) (w1 w2 : str) (b : written).
Definition symbol (o : infix) : str := lit match o with Add => "+" | Subtract => "-" | Power => "**" | Multiply => "*" | Divide => "/" end.
Fixpoint show (c : written) : str :=
  match c with
  | CNum s => s
  | CVar x => x
  | CParen w1 c w2 => lit "(" ++ w1 ++ show c ++ w2 ++ lit ")"
  | CCall1 f w0 w1 a w2 => f ++ w0 ++ lit "(" ++ w1 ++ show a ++ w2 ++ lit ")"
  | CCall2 f w0 w1 a w2 w3 b w4 => f ++ w0 ++ lit "(" ++ w1 ++ show a ++ w2 ++ lit "," ++ w3 ++ show b ++ w4 ++ lit ")"
  | CImplicit n w c => n ++ w ++ show c
  | CNeg w c => lit "-" ++ w ++ show c
  | CInfix o a w1 w2 b => show a ++ w1 ++ symbol o ++ w2 ++ show b
  end.

(** How strongly an expression holds together, in Python and sympy: sums, products, negation, powers, the rest. *)
Definition strength (c : written) : nat :=
  match c with CInfix Add _ _ _ _ | CInfix Subtract _ _ _ _ => 1 | CInfix Multiply _ _ _ _ | CInfix Divide _ _ _ _ => 2 | CNeg _ _ => 3 | CInfix Power _ _ _ _ => 4 | _ => 5 end.
Definition standalone (c : written) : Prop := match c with CVar _ | CParen _ _ _ | CCall1 _ _ _ _ _ | CCall2 _ _ _ _ _ _ _ _ => True | _ => False end.
(** The operation of a function, and the number of its arguments. *)
Definition function (f : str) : option (op * nat) :=
  match string_of_list_ascii f with
  | "max"%string => Some (Fmax, 2) | "min"%string => Some (Fmin, 2) | "abs"%string => Some (Fabs, 1)
  | "floor"%string => Some (Ffloor, 1) | "ceil"%string => Some (Fceil, 1) | "round"%string => Some (Fround, 1)
  | _ => None
  end.
(** The grammar of Python: sums and products associate to the left, powers to the right; the left operand of a power is
    an atom; the right one may have a sign; negation applies to powers. And implicit products, as documented in the
    grammar: a number before something else than an operator, such that the number does not go on. *)
Fixpoint grammatical (c : written) : Prop :=
  match c with
  | CNum s => number s
  | CVar x => name x
  | CParen w1 c w2 => blank w1 /\ blank w2 /\ grammatical c
  | CCall1 f w0 w1 a w2 => name f /\ blank w0 /\ blank w1 /\ blank w2 /\ grammatical a /\ (forall o n, function f = Some (o, n) -> n = 1)
  | CCall2 f w0 w1 a w2 w3 b w4 => name f /\ blank w0 /\ blank w1 /\ blank w2 /\ blank w3 /\ blank w4 /\ grammatical a /\ grammatical b /\ (forall o n, function f = Some (o, n) -> n = 2)
  | CImplicit n w c => number n /\ blank w /\ grammatical c /\ standalone c /\ (w = [] -> forall r, show c <> "e"%char :: r /\ show c <> "E"%char :: r)
  | CNeg w c => blank w /\ grammatical c /\ 3 <= strength c
  | CInfix o a w1 w2 b =>
      grammatical a /\ grammatical b /\ blank w1 /\ blank w2 /\
      match o with
      | Add | Subtract => 1 <= strength a /\ 2 <= strength b
      | Multiply | Divide => 2 <= strength a /\ 3 <= strength b
      | Power => 5 <= strength a /\ 3 <= strength b
      end
  end.
(** No power directly under a minus sign, or in the exponent of another one. *)
Fixpoint plain (c : written) : Prop :=
  match c with
  | CNum _ | CVar _ => True
  | CParen _ c _ | CCall1 _ _ _ c _ | CImplicit _ _ c => plain c
  | CCall2 _ _ _ a _ _ b _ => plain a /\ plain b
  | CNeg _ c => plain c /\ strength c <> 4
  | CInfix o a _ _ b => plain a /\ plain b /\ (o = Power -> strength b <> 4)
  end.

Section Meaning.
Variable K : numbers.
Variables (var sympy : str -> value K).
Definition infix_meaning (o : infix) : value K -> value K -> value K := binary K match o with Add => Radd | Subtract => Fsub | Power => Fpow | Multiply => Fmul | Divide => Fdiv end.
Fixpoint meaning (c : written) : value K :=
  match c with
  | CNum s => of_text K s
  | CVar x => if list_eq_dec ascii_dec x (lit "pi") then pi K else var x
  | CParen _ c _ => meaning c
  | CCall1 f _ _ a _ => match function f with Some (o, _) => unary K o (meaning a) | None => sympy (show c) end
  | CCall2 f _ _ a _ _ b _ => match function f with Some (o, _) => binary K o (meaning a) (meaning b) | None => sympy (show c) end
  | CImplicit n _ c => binary K Fmul (of_text K n) (meaning c)
  | CNeg _ c => unary K Fneg (meaning c)
  | CInfix o a _ _ b => infix_meaning o (meaning a) (meaning b)
  end.
(** All numbers that occur are finite. *)
Fixpoint bounded (c : written) : Prop :=
  match c with
  | CNum s => finite K (of_text K s) = true
  | CVar _ => True
  | CParen _ c _ | CCall1 _ _ _ c _ | CNeg _ c => bounded c
  | CImplicit n _ c => finite K (of_text K n) = true /\ bounded c
  | CCall2 _ _ _ a _ _ b _ | CInfix _ a _ _ b => bounded a /\ bounded b
  end.
(** Facts about floating point numbers. *)
Record laws : Prop := {
  minus_text : forall s, number s -> of_text K ("-"%char :: s) = unary K Fneg (of_text K s);
  minus_times : forall a b, unary K Fneg (binary K Fmul a b) = binary K Fmul (unary K Fneg a) b;
  minus_finite : forall a, finite K (unary K Fneg a) = finite K a;
  pi_finite : finite K (pi K) = true
}.
(** An angle in half turns. *)
Definition angle (p : loaded K) : value K := match fst p with FloatRadians => binary K Fdiv (snd p) (pi K) | _ => snd p end.

(** The value of an expression of a circuit. *)
Definition op1 (o : fop1) : op := match o with fneg => Fneg | ffloor => Ffloor | fceil => Fceil | fround => Fround | fabs => Fabs end.
Definition op2 (o : fop2) : op := match o with fadd => Radd | fsub => Fsub | fmul => Fmul | fdiv => Fdiv | fpow => Fpow | fmax => Fmax | fmin => Fmin end.
Fixpoint feval (e : fexpr K) : value K :=
  match e with
  | FConst _ v => v
  | FInput _ x => var x
  | FSympy _ s => sympy s
  | FUnary _ o a => unary K (op1 o) (feval a)
  | FBinary _ o a b => binary K (op2 o) (feval a) (feval b)
  end.
(** Numbers are printed so that they can be read again; names that are not pi. *)
Definition printable (v : value K) : Prop :=
  finite K v = true /\ of_text K (to_text K v) = v /\
  (number (to_text K v) \/ exists s, to_text K v = "-"%char :: s /\ number s /\ finite K (of_text K s) = true).
(** Constants that are taken for a fraction of pi are equal to it. *)
Definition exact (v : value K) : Prop := forall w s, In (w, s) (vals K) -> near K v w = true -> v = w.
Fixpoint encodable (e : fexpr K) : Prop :=
  match e with
  | FConst _ v => printable v /\ exact v
  | FInput _ x => name x /\ x <> lit "pi"
  | FSympy _ s => exists c, s = show c /\ grammatical c /\ plain c /\ bounded c /\ sympy s = meaning c
  | FUnary _ _ a => encodable a
  | FBinary _ _ a b => encodable a /\ encodable b
  end.
(** One is neutral. *)
Record one_laws : Prop := {
  one_times : forall v, binary K Fmul (of_text K (lit "1")) v = v;
  times_one : forall v, binary K Fmul v (of_text K (lit "1")) = v;
  over_one : forall v, binary K Fdiv v (of_text K (lit "1")) = v;
  small : finite K (of_text K (lit "2")) = true /\ finite K (of_text K (lit "3")) = true /\ finite K (of_text K (lit "4")) = true
}.
End Meaning.

(** The strings that a parsed expression stands for: the grammar, as derivations. *)
Definition signed (n : str) : Prop := number n \/ exists m, n = "-"%char :: m /\ number m.
Inductive derives : pair -> str -> Prop :=
  | d_num : forall n, signed n -> derives (Num n) n
  | d_ident : forall x, name x -> derives (Ident x) x
  | d_paren : forall t l w1 a w2, blank w1 -> blank w2 -> derives_expr (Expr t l) a -> derives (Expr t l) (lit "(" ++ w1 ++ a ++ w2 ++ lit ")")
  | d_implicit : forall n w t a, signed n -> blank w -> derives t a -> match t with Num _ | ImplicitMultiply _ _ | UnaryMinus _ => False | _ => True end -> derives (ImplicitMultiply n t) (n ++ w ++ a)
  | d_minus : forall w t a, blank w -> derives t a -> derives (UnaryMinus t) (lit "-" ++ w ++ a)
  | d_call0 : forall f w, name f -> blank w -> derives (FunctionCall (f ++ w ++ lit "()") f []) (f ++ w ++ lit "()")
  | d_call : forall f w0 w1 e a w2 l b s, name f -> blank w0 -> blank w1 -> blank w2 -> derives_expr e a -> derives_args l b ->
      (s = f ++ w0 ++ lit "(" ++ w1 ++ a ++ b ++ w2 ++ lit ")" \/ exists w3, blank w3 /\ s = f ++ w0 ++ lit "(" ++ w1 ++ a ++ b ++ w2 ++ lit "," ++ w3 ++ lit ")") ->
      derives (FunctionCall s f (e :: l)) s
with derives_expr : pair -> str -> Prop :=
  | d_expr : forall t a l b, derives t a -> derives_ops l b -> derives_expr (Expr t l) (a ++ b)
with derives_ops : list (infix * pair) -> str -> Prop :=
  | d_none : derives_ops [] []
  | d_op : forall o t a l b w1 w2, blank w1 -> blank w2 -> derives t a -> derives_ops l b -> derives_ops ((o, t) :: l) (w1 ++ symbol o ++ w2 ++ a ++ b)
with derives_args : list pair -> str -> Prop :=
  | d_noargs : derives_args [] []
  | d_arg : forall e a l b w1 w2, blank w1 -> blank w2 -> derives_expr e a -> derives_args l b -> derives_args (e :: l) (w1 ++ lit "," ++ w2 ++ a ++ b).

(** Functions are called with the right number of arguments, and all numbers are finite. *)
Section Sensible.
Variable K : numbers.
Inductive sensible : pair -> Prop :=
  | s_num : forall n, finite K (of_text K n) = true -> sensible (Num n)
  | s_ident : forall x, sensible (Ident x)
  | s_expr : forall t l, sensible t -> Forall (fun p => sensible (snd p)) l -> sensible (Expr t l)
  | s_implicit : forall n t, finite K (of_text K n) = true -> sensible t -> sensible (ImplicitMultiply n t)
  | s_minus : forall t, sensible t -> sensible (UnaryMinus t)
  | s_known : forall s f l o, function f = Some (o, List.length l) -> Forall sensible l -> sensible (FunctionCall s f l)
  | s_unknown : forall s f l, function f = None -> sensible (FunctionCall s f l).
End Sensible.
(** The names in an expression, from left to right, without those in expressions left to sympy. *)
Fixpoint names (c : written) : list str :=
  match c with
  | CNum _ => []
  | CVar x => if list_eq_dec ascii_dec x (lit "pi") then [] else [x]
  | CParen _ c _ | CImplicit _ _ c | CNeg _ c => names c
  | CCall1 f _ _ a _ => match function f with Some _ => names a | None => [] end
  | CCall2 f _ _ a _ _ b _ => match function f with Some _ => names a ++ names b | None => [] end
  | CInfix _ a _ _ b => names a ++ names b
  end.
(** The different names of a list, in the order of first occurrence. *)
Fixpoint distinct (seen l : list str) : list str :=
  match l with
  | [] => seen
  | x :: l => if in_dec (list_eq_dec ascii_dec) x seen then distinct seen l else distinct (seen ++ [x]) l
  end.
