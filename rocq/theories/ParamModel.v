(** Model of the parameter expressions of pytket operations: tket/src/serialize/pytket/decoder/param/{param.pest,parser.rs},
    load_half_turns_parameter of decoder/wires.rs, decoder/param.rs, and the emitters extension/{float,rotation}.rs. *)
From Coq Require Import List Bool Arith String Ascii.
Import ListNotations.
Local Open Scope list_scope.

Definition str : Type := list ascii.
Definition lit (s : string) : str := list_ascii_of_string s.

(** pest's built-in character classes *)
Definition code (c : ascii) : nat := nat_of_ascii c.
Definition is_digit (c : ascii) : bool := Nat.leb 48 (code c) && Nat.leb (code c) 57.
Definition is_nonzero_digit (c : ascii) : bool := Nat.leb 49 (code c) && Nat.leb (code c) 57.
Definition is_alpha (c : ascii) : bool := (Nat.leb 65 (code c) && Nat.leb (code c) 90) || (Nat.leb 97 (code c) && Nat.leb (code c) 122).
(** param.pest:55, WHITESPACE: a space or a tabulator *)
Definition is_space (c : ascii) : bool := Ascii.eqb c " " || Ascii.eqb c (ascii_of_nat 9).

Fixpoint span (f : ascii -> bool) (s : str) : str * str :=
  match s with
  | [] => ([], [])
  | c :: r => if f c then let (a, b) := span f r in (c :: a, b) else ([], s)
  end.
(** What pest does at each [~] of a rule that is not atomic. *)
Definition skip (s : str) : str := snd (span is_space s).
(** A literal character. *)
Definition char (x : ascii) (s : str) : option str := match s with c :: r => if Ascii.eqb c x then Some r else None | [] => None end.

(** param.pest:9-11, ident (and variable) *)
Definition ident (s : str) : option (str * str) :=
  match s with
  | c :: r => if is_alpha c then let (a, b) := span (fun c => is_alpha c || is_digit c || Ascii.eqb c "_") r in Some (c :: a, b) else None
  | [] => None
  end.
(** param.pest:16-21, num *)
Definition int_part (s : str) : option (str * str) :=
  match s with
  | c :: r => if Ascii.eqb c "0" then Some ([c], r) else if is_nonzero_digit c then let (a, b) := span is_digit r in Some (c :: a, b) else None
  | [] => None
  end.
Definition frac_part (s : str) : str * str :=
  match s with
  | c :: r => if Ascii.eqb c "." then let (a, b) := span is_digit r in (c :: a, b) else ([], s)
  | [] => ([], s)
  end.
Definition sign_part (s : str) : str * str :=
  match s with
  | c :: r => if Ascii.eqb c "+" || Ascii.eqb c "-" then ([c], r) else ([], s)
  | [] => ([], s)
  end.
Definition exp_part (s : str) : str * str :=
  match s with
  | c :: r =>
      if Ascii.eqb c "e" || Ascii.eqb c "E" then
        let (sg, r1) := sign_part r in
        let (d, r2) := span is_digit r1 in
        match d with [] => ([], s) | _ => (c :: sg ++ d, r2) end
      else ([], s)
  | [] => ([], s)
  end.
Definition num (s : str) : option (str * str) :=
  let (m, s1) := match char "-" s with Some r => (["-"%char], r) | None => ([], s) end in
  match int_part s1 with
  | None => None
  | Some (i, s2) => let (f, s3) := frac_part s2 in let (e, s4) := exp_part s3 in Some (m ++ i ++ f ++ e, s4)
  end.

(** param.pest:26-31, infix_operator *)
Inductive infix : Type := Add | Subtract | Power | Multiply | Divide.
Definition infix_operator (s : str) : option (infix * str) :=
  match s with
  | c :: r =>
      if Ascii.eqb c "+" then Some (Add, r)
      else if Ascii.eqb c "-" then Some (Subtract, r)
      else match (if Ascii.eqb c "*" then char "*" r else None) with
           | Some r' => Some (Power, r')
           | None => if Ascii.eqb c "*" then Some (Multiply, r) else if Ascii.eqb c "/" then Some (Divide, r) else None
           end
  | [] => None
  end.

(** The pairs that pest returns. [term] and [variable] are silent. The text of a call is kept, parser.rs:150. *)
Inductive pair : Type :=
  | Expr (first : pair) (rest : list (infix * pair))
  | ImplicitMultiply (n : str) (t : pair)
  | Num (n : str)
  | UnaryMinus (t : pair)
  | FunctionCall (text name : str) (args : list pair)
  | Ident (name : str).

(** Outcome of matching a rule; [Fuel] is excluded below. *)
Inductive match_ (A : Type) : Type := Fuel | Fail | Match (a : A) (rest : str).
Arguments Fuel {A}.
Arguments Fail {A}.
Arguments Match {A}.
(** pest's ordered choice *)
Definition orelse {A} (a b : match_ A) : match_ A := match a with Fail => b | _ => a end.

(** The text between the beginning [s] of a match and the [rest] behind it. *)
Definition text (s rest : str) : str := firstn (List.length s - List.length rest) s.

(** param.pest:33-48, expr, term, implicit_multiply, unary_minus, function_call. White space before an optional part
    that is not there is not consumed here: all that follows begins with skipping it. *)
Fixpoint expr (fuel : nat) (s : str) {struct fuel} : match_ pair :=
  match fuel with
  | O => Fuel
  | S fuel =>
      match term fuel s with
      | Match t r => match operands fuel r with Match l r' => Match (Expr t l) r' | Fail => Fail | Fuel => Fuel end
      | Fail => Fail
      | Fuel => Fuel
      end
  end
with operands (fuel : nat) (s : str) {struct fuel} : match_ (list (infix * pair)) :=
  match fuel with
  | O => Fuel
  | S fuel =>
      match infix_operator (skip s) with
      | None => Match [] s
      | Some (o, r) =>
          match term fuel (skip r) with
          | Fuel => Fuel
          | Fail => Match [] s
          | Match t r' => match operands fuel r' with Match l r'' => Match ((o, t) :: l) r'' | Fail => Fail | Fuel => Fuel end
          end
      end
  end
with term (fuel : nat) (s : str) {struct fuel} : match_ pair :=
  match fuel with
  | O => Fuel
  | S fuel =>
      let variable := match ident s with Some (x, r) => Match (Ident x) r | None => Fail end in
      orelse (parens fuel s)
        (orelse (match num s with
                 | None => Fail
                 | Some (n, r) =>
                     let r := skip r in
                     match orelse (parens fuel r) (orelse (function_call fuel r) (match ident r with Some (x, r') => Match (Ident x) r' | None => Fail end)) with
                     | Match t r' => Match (ImplicitMultiply n t) r'
                     | Fail => Fail
                     | Fuel => Fuel
                     end
                 end)
           (orelse (match num s with Some (n, r) => Match (Num n) r | None => Fail end)
              (orelse (match char "-" s with
                       | None => Fail
                       | Some r => match term fuel (skip r) with Match t r' => Match (UnaryMinus t) r' | Fail => Fail | Fuel => Fuel end
                       end)
                 (orelse (function_call fuel s) variable))))
  end
with parens (fuel : nat) (s : str) {struct fuel} : match_ pair :=
  match fuel with
  | O => Fuel
  | S fuel =>
      match char "(" s with
      | None => Fail
      | Some r =>
          match expr fuel (skip r) with
          | Match e r' => match char ")" (skip r') with Some r'' => Match e r'' | None => Fail end
          | Fail => Fail
          | Fuel => Fuel
          end
      end
  end
with function_call (fuel : nat) (s : str) {struct fuel} : match_ pair :=
  match fuel with
  | O => Fuel
  | S fuel =>
      match ident s with
      | None => Fail
      | Some (x, r) =>
          match char "(" (skip r) with
          | None => Fail
          | Some r1 =>
              match char ")" r1 with
              | Some r2 => Match (FunctionCall (text s r2) x []) r2
              | None =>
                  match expr fuel (skip r1) with
                  | Fuel => Fuel
                  | Fail => Fail
                  | Match e r2 =>
                      match arguments fuel r2 with
                      | Fuel => Fuel
                      | Fail => Fail
                      | Match l r3 =>
                          let r4 := match char "," (skip r3) with Some r4 => r4 | None => r3 end in
                          match char ")" (skip r4) with Some r5 => Match (FunctionCall (text s r5) x (e :: l)) r5 | None => Fail end
                      end
                  end
              end
          end
      end
  end
with arguments (fuel : nat) (s : str) {struct fuel} : match_ (list pair) :=
  match fuel with
  | O => Fuel
  | S fuel =>
      match char "," (skip s) with
      | None => Match [] s
      | Some r =>
          match expr fuel (skip r) with
          | Fuel => Fuel
          | Fail => Match [] s
          | Match e r' => match arguments fuel r' with Match l r'' => Match (e :: l) r'' | Fail => Fail | Fuel => Fuel end
          end
      end
  end.
(** param.pest:50-51, parameter *)
Definition parameter (s : str) : match_ pair :=
  match expr (3 * List.length s + 4) (skip s) with
  | Match e r => match skip r with [] => Match e [] | _ => Fail end
  | Fail => Fail
  | Fuel => Fuel
  end.

(** parser.rs:98-104, 111-144, 159-170: the hugr operations *)
Inductive op : Type := Radd | Fsub | Fmul | Fdiv | Fpow | Fneg | Fmax | Fmin | Fabs | Ffloor | Fceil | Fround.
Inductive ptype : Type := FloatRadians | FloatHalfTurns | Rotation.
(** parser.rs:23-48, PytketParam. A constant is kept as its text here. *)
Inductive param : Type :=
  | Constant (n : str)
  | InputVariable (name : str)
  | Sympy (text : str)
  | Operation (o : op) (args : list param) (ty : ptype).
(** parser.rs:81-86: pest gives each [op] call ten more *)
Definition precedence (o : infix) : nat := match o with Add | Subtract => 10 | Multiply | Divide => 20 | Power => 30 end.
(** parser.rs:97-111 *)
Definition infix_op (o : infix) : op * ptype :=
  match o with Add => (Radd, Rotation) | Subtract => (Fsub, FloatHalfTurns) | Multiply => (Fmul, FloatHalfTurns) | Divide => (Fdiv, FloatHalfTurns) | Power => (Fpow, FloatHalfTurns) end.
Definition node (o : infix) (a b : param) : param := Operation (fst (infix_op o)) [a; b] (snd (infix_op o)).
(** pest's PrattParser, with operators that associate to the left: operators that bind more than [rbp] are taken. *)
Fixpoint pratt (fuel rbp : nat) (lhs : param) (l : list (infix * param)) : option (param * list (infix * param)) :=
  match fuel with
  | O => None
  | S fuel =>
      match l with
      | [] => Some (lhs, [])
      | (o, t) :: l' =>
          if Nat.ltb rbp (precedence o) then
            match pratt fuel (precedence o) t l' with
            | None => None
            | Some (rhs, l'') => pratt fuel rbp (node o lhs rhs) l''
            end
          else Some (lhs, l)
      end
  end.
(** parser.rs:91-112, parse_infix_ops, on operands that are parsed already *)
Definition parse_infix_ops (first : param) (rest : list (infix * param)) : param :=
  match pratt (2 * List.length rest + 1) 0 first rest with Some (p, _) => p | None => first end.
(** parser.rs:159-170 *)
Definition known_function (name : str) : option op :=
  match string_of_list_ascii name with
  | "max"%string => Some Fmax | "min"%string => Some Fmin | "abs"%string => Some Fabs
  | "floor"%string => Some Ffloor | "ceil"%string => Some Fceil | "round"%string => Some Fround
  | _ => None
  end.
(** parser.rs:115-178, parse_term, parse_number and parse_function_call *)
Fixpoint parse_term (p : pair) : param :=
  match p with
  | Expr first rest => parse_infix_ops (parse_term first) (map (fun '(o, t) => (o, parse_term t)) rest)
  | ImplicitMultiply n t => Operation Fmul [Constant n; parse_term t] FloatHalfTurns
  | Num n => Constant n
  | UnaryMinus t => Operation Fneg [parse_term t] FloatHalfTurns
  | FunctionCall text name args => match known_function name with Some o => Operation o (map parse_term args) FloatHalfTurns | None => Sympy text end
  | Ident x => InputVariable x
  end.
(** parser.rs:52-63, parse_pytket_param *)
Definition parse_pytket_param (s : str) : param :=
  match parameter s with Match p _ => parse_term p | _ => Sympy s end.

(** Floating point numbers and the operations on them are external. *)
Record numbers : Type := {
  value : Type;
  of_text : str -> value;                  (* f64's FromStr *)
  to_text : value -> str;                  (* f64's Display *)
  finite : value -> bool;
  near : value -> value -> bool;           (* closer than 1e-10 *)
  pi : value;
  unary : op -> value -> value;
  binary : op -> value -> value -> value
}.

Section Load.
Variable K : numbers.
Notation value := (value K).
(** What is loaded: the type, and the value at the wire. *)
Definition loaded : Type := ptype * value.
(** param.rs:125-200, as_float_radians, as_float_half_turns, as_rotation. Rotations are held as half turns. *)
Definition as_float_half_turns (p : loaded) : loaded :=
  match fst p with FloatHalfTurns => p | FloatRadians => (FloatHalfTurns, binary K Fdiv (snd p) (pi K)) | Rotation => (FloatHalfTurns, snd p) end.
Definition as_float_radians (p : loaded) : loaded :=
  match fst p with FloatRadians => p | _ => (FloatRadians, binary K Fmul (snd (as_float_half_turns p)) (pi K)) end.
Definition as_rotation (p : loaded) : loaded :=
  match fst p with Rotation => p | _ => (Rotation, snd (as_float_half_turns p)) end.
Definition with_type (t : ptype) (p : loaded) : loaded :=
  match t with FloatRadians => as_float_radians p | FloatHalfTurns => as_float_half_turns p | Rotation => as_rotation p end.

Definition arity (o : op) : nat := match o with Fneg | Fabs | Ffloor | Fceil | Fround => 1 | _ => 2 end.
(** The variables of the circuit, and what sympy makes of other expressions. *)
Variables (inputs : str -> loaded) (sympy : str -> value).
Definition constant (v : value) (hint : option ptype) : option loaded :=
  match hint with
  | Some FloatHalfTurns | Some FloatRadians => Some (FloatHalfTurns, v)
  | _ => if finite K v then Some (Rotation, v) else None
  end.
(** wires.rs:897-992, process; [None]: a panic. The operations that are added are evaluated at once. The hugr builder
    refuses an operation with the wrong number of inputs. *)
Fixpoint process (p : param) (hint : option ptype) {struct p} : option loaded :=
  match p with
  | Constant n => constant (of_text K n) hint
  | Sympy s => Some (Rotation, sympy s)
  | InputVariable x => if list_eq_dec ascii_dec x (lit "pi") then constant (pi K) hint else Some (inputs x)
  | Operation o args ty =>
      match (fix all (l : list param) : option (list value) :=
               match l with
               | [] => Some []
               | a :: l => match process a (Some ty) with
                           | None => None
                           | Some v => match all l with Some vs => Some (snd (with_type ty v) :: vs) | None => None end
                           end
               end) args with
      | None => None
      | Some vs =>
          match vs with
          | [a] => if Nat.eqb (arity o) 1 then Some (ty, unary K o a) else None
          | [a; b] => if Nat.eqb (arity o) 2 then Some (ty, binary K o a b) else None
          | _ => None
          end
      end
  end.
(** wires.rs:890-1005, load_half_turns_parameter *)
Definition load_half_turns_parameter (s : str) (hint : option ptype) : option loaded := process (parse_pytket_param s) hint.

(** Expressions in the circuit that is encoded. *)
Inductive fop1 : Type := fneg | ffloor | fceil | fround | fabs.
Inductive fop2 : Type := fadd | fsub | fmul | fdiv | fpow | fmax | fmin.
Inductive fexpr : Type :=
  | FConst (v : value)               (* a float or a rotation *)
  | FInput (name : str)              (* a parameter of the circuit *)
  | FSympy (s : str)                 (* extension/tket.rs:107-117 *)
  | FUnary (o : fop1) (a : fexpr)
  | FBinary (o : fop2) (a b : fexpr). (* [fadd] also stands for radd; conversions leave the expression as it is *)
Definition half (v : value) : value := binary K Fdiv v (of_text K (lit "2")).
Definition quarter (v : value) : value := binary K Fdiv v (of_text K (lit "4")).
Definition minus (v : value) : value := unary K Fneg v.
Definition three : value := of_text K (lit "3").
(** float.rs:74-84 and rotation.rs:69-79, VALS *)
Definition vals : list (value * str) :=
  [ (pi K, lit "pi"); (half (pi K), lit "pi/2"); (half (minus (pi K)), lit "-pi/2"); (quarter (pi K), lit "pi/4");
    (quarter (binary K Fmul three (pi K)), lit "3pi/4"); (quarter (minus (pi K)), lit "-pi/4");
    (quarter (binary K Fmul (minus three) (pi K)), lit "-3pi/4") ].
(** float.rs:61-94, rotation.rs:57-89, const_to_pytket *)
Definition const_to_pytket (v : value) : str :=
  match find (fun '(w, _) => near K v w) vals with Some (_, name) => name | None => to_text K v end.
(** float.rs:119-152, rotation.rs:112-120, encode_rotation_op *)
Definition is_one (s : str) : bool := if list_eq_dec ascii_dec s (lit "1") then true else false.
Definition wrap (a : str) (o : string) (b : str) : str := lit "(" ++ a ++ lit ") " ++ lit o ++ lit " (" ++ b ++ lit ")".
Definition encode_unary (o : fop1) (a : str) : str :=
  match o with
  | fneg => lit "-(" ++ a ++ lit ")"
  | ffloor => lit "floor(" ++ a ++ lit ")"
  | fceil => lit "ceil(" ++ a ++ lit ")"
  | fround => lit "round(" ++ a ++ lit ")"
  | fabs => lit "abs(" ++ a ++ lit ")"
  end.
Definition encode_binary (o : fop2) (a b : str) : str :=
  match o with
  | fadd => wrap a "+" b
  | fsub => wrap a "-" b
  | fpow => wrap a "**" b
  | fmax => lit "max(" ++ a ++ lit ", " ++ b ++ lit ")"
  | fmin => lit "min(" ++ a ++ lit ", " ++ b ++ lit ")"
  | fdiv => if is_one b then a else wrap a "/" b
  | fmul => if is_one a then b else if is_one b then a else wrap a "*" b
  end.
Fixpoint encode (e : fexpr) : str :=
  match e with
  | FConst v => const_to_pytket v
  | FInput x => x
  | FSympy s => s
  | FUnary o a => encode_unary o (encode a)
  | FBinary o a b => encode_binary o (encode a) (encode b)
  end.
End Load.

(** wires.rs:949-965: the wires of the circuit's parameters, in the order of first use. Inputs of the circuit that are
    not used yet come first, then new ones are added. *)
Definition wire : Type := nat.
Record parameters : Type := { known : list (str * wire); unused : list wire; added : wire }.
Definition input_wire (st : parameters) (x : str) : parameters * wire :=
  match find (fun '(y, _) => if list_eq_dec ascii_dec y x then true else false) (known st) with
  | Some (_, w) => (st, w)
  | None =>
      match unused st with
      | w :: l => ({| known := known st ++ [(x, w)]; unused := l; added := added st |}, w)
      | [] => ({| known := known st ++ [(x, added st)]; unused := []; added := S (added st) |}, added st)
      end
  end.
(** wires.rs:897-992, process: the variables are looked up from left to right; pi is not one. *)
Fixpoint lookups (p : param) : list str :=
  match p with
  | Constant _ | Sympy _ => []
  | InputVariable x => if list_eq_dec ascii_dec x (lit "pi") then [] else [x]
  | Operation _ args _ => flat_map lookups args
  end.
Fixpoint input_wires (st : parameters) (l : list str) : parameters * list wire :=
  match l with
  | [] => (st, [])
  | x :: l => let (st, w) := input_wire st x in let (st, ws) := input_wires st l in (st, w :: ws)
  end.
(** The expressions of a circuit, one after the other. *)
Definition load_all (st : parameters) (l : list str) : parameters * list wire := input_wires st (flat_map (fun s => lookups (parse_pytket_param s)) l).
