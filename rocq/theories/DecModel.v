(** Model of the pytket decoder: tket/src/serialize/pytket/decoder.rs and decoder/wires.rs, with the decoders
    of extension/tket.rs, bool.rs, prelude.rs and tk1.rs.

    Registers are numbers (the code hashes names). The wires that hold a qubit or bit (qubit_wires and
    bit_wires, wires.rs:571-578) are looked up in the list of all wires instead of in maps of their own. A parameter
    expression is loaded by one node (see ParamModel for how); conversions between floats and rotations
    are left out, as are region inputs for parameters. An operation is put into the circuit
    after the nodes that make its inputs, the code makes the node first and connects it later. Not
    modelled: payloads of barriers and subgraphs, CircBoxes, outputs that are linked already. *)
From Coq Require Import List Bool Arith.
From Verif Require Import EncSpec DecSpec OpsModel.
Import ListNotations.
Local Notation "'Succ'" := Datatypes.S.

Inductive err : Type :=
  | OutdatedQubit | OutdatedBit | NoMatchingWire | NoMatchingParameter | UnexpectedInputType | UnknownRegister
  | NotEnoughInputRegisters | NotEnoughOutputRegisters | InvalidInputSignature | UnexpectedNodeOutput | CannotTranslateWire
  | Panic.
Inductive res (A : Type) : Type := Ok (a : A) | Err (e : err).
Arguments Ok {A}. Arguments Err {A}.
Definition bind {A B} (x : res A) (f : A -> res B) : res B := match x with Ok a => f a | Err e => Err e end.
Notation "x <- a ;; b" := (bind a (fun x => b)) (at level 61, a at next level, right associativity).
Notation "' p <- a ;; b" := (bind a (fun x => match x with p => b end)) (at level 61, p pattern, a at next level, right associativity).

(** config/type_translators.rs:65-129, type_to_pytket and type_to_pytket_internal; [TX] has no translation. *)
Definition cadd (a b : count) : count := {| cq := cq a + cq b; cb := cb a + cb b; cp := cp a + cp b |}.
Definition czero : count := {| cq := 0; cb := 0; cp := 0 |}.
Fixpoint count_internal (t : ty) : option count :=
  match t with
  | TQ => Some {| cq := 1; cb := 0; cp := 0 |}
  | TB | TT => Some {| cq := 0; cb := 1; cp := 0 |}
  | TP => Some {| cq := 0; cb := 0; cp := 1 |}
  | TTup l =>
      match fold_right (fun t acc => match count_internal t, acc with Some a, Some b => Some (cadd a b) | _, _ => None end) (Some czero) l with
      | Some c => if Nat.eqb (cp c) 0 then Some c else None
      | None => None
      end
  | TX _ => None
  end.
Definition type_to_pytket (t : ty) : option count :=
  match count_internal t with Some c => if Nat.eqb (cq c + cb c + cp c) 0 then None else Some c | None => None end.
Definition count_or_default (t : ty) : count := match type_to_pytket t with Some c => c | None => czero end.
Fixpoint ty_eqb (a b : ty) : bool :=
  match a, b with
  | TQ, TQ | TB, TB | TT, TT | TP, TP => true
  | TTup l, TTup m =>
      (fix go l m := match l, m with [], [] => true | x :: l, y :: m => ty_eqb x y && go l m | _, _ => false end) l m
  | TX n, TX m => Nat.eqb n m
  | _, _ => false
  end.
(** config/type_translators.rs:155-172, types_are_isomorphic *)
Definition isomorphic (a b : ty) : bool := ty_eqb a b || match a, b with TB, TT | TT, TB => true | _, _ => false end.

Section Decoder.
Variables Op POp E : Type.
(** config/decoder_config.rs:71-91, op_to_hugr, for an operation and its numbers of qubits, bits and
    parameters: [None] is Unsupported. *)
Variable lookup : POp -> nat -> nat -> nat -> option (dec Op).
Variable opaque : POp -> Op.                                  (* OpaqueTk1Op *)
Variables read_op make_op : Op.                               (* BoolOp::read, BoolOp::make_opaque *)
Notation tnode := (tnode Op E).

(** decoder/tracked_elem.rs: TrackedQubit and TrackedBit *)
Record elem : Type := { e_reg : nat; e_old : bool }.
(** wires.rs:38-60, WireData *)
Record wdata : Type := { w_ty : ty; w_ids : kind -> list nat }.
(** wires.rs:280-345, WireTracker, and the region that is built. [s_next]: the next new wire. *)
Record state : Type := { s_nodes : list tnode; s_next : nat; s_wires : list (wire * wdata); s_elems : kind -> list elem; s_latest : kind -> list (nat * nat) }.
(** A copy of a tracked element. *)
Record arg : Type := { a_id : nat; a_reg : nat; a_old : bool }.

Definition upd {A} (f : kind -> A) (k : kind) (a : A) : kind -> A := fun k' => if kind_eqb k' k then a else f k'.
Definition with_elems (st : state) (f : kind -> list elem) : state := {| s_nodes := s_nodes st; s_next := s_next st; s_wires := s_wires st; s_elems := f; s_latest := s_latest st |}.

(** A new node; returns its output wires. *)
Definition add_node (st : state) (i : inst Op E) (ins : list wire) (ti to : list ty) : state * list wire :=
  let ws := seq (s_next st) (length to) in
  ({| s_nodes := s_nodes st ++ [{| t_node := {| what := i; nin := ins; nout := combine ws (map count_or_default to) |}; t_in := ti; t_out := to |}];
      s_next := s_next st + length to; s_wires := s_wires st; s_elems := s_elems st; s_latest := s_latest st |}, ws).

(** IndexMap::insert: an old key stays where it is. *)
Fixpoint insert (r id : nat) (l : list (nat * nat)) : list (nat * nat) :=
  match l with [] => [(r, id)] | (r', i) :: l => if Nat.eqb r' r then (r, id) :: l else (r', i) :: insert r id l end.
Fixpoint get (r : nat) (l : list (nat * nat)) : option nat :=
  match l with [] => None | (r', i) :: l => if Nat.eqb r' r then Some i else get r l end.
Fixpoint mark (id : nat) (l : list elem) : list elem :=
  match l, id with
  | [], _ => []
  | x :: l, 0 => {| e_reg := e_reg x; e_old := true |} :: l
  | x :: l, Succ id => x :: mark id l
  end.
Definition mark_outdated (st : state) (k : kind) (id : nat) : state := with_elems st (upd (s_elems st) k (mark id (s_elems st k))).
(** wires.rs:482-522, track_qubit and track_bit *)
Definition track (st : state) (k : kind) (r : nat) : state * nat :=
  let id := length (s_elems st k) in
  let es := s_elems st k ++ [{| e_reg := r; e_old := false |}] in
  let es := match get r (s_latest st k) with Some i => mark i es | None => es end in
  ({| s_nodes := s_nodes st; s_next := s_next st; s_wires := s_wires st; s_elems := upd (s_elems st) k es; s_latest := upd (s_latest st) k (insert r id (s_latest st k)) |}, id).
Fixpoint tracks (st : state) (k : kind) (rs : list nat) : state * list nat :=
  match rs with [] => (st, []) | r :: rs => let '(st, i) := track st k r in let '(st, l) := tracks st k rs in (st, i :: l) end.
(** wires.rs:994-1030, track_wire *)
Definition track_wire (st : state) (w : wire) (t : ty) (qs bs : list nat) : state :=
  let '(st, qi) := tracks st Qb qs in
  let '(st, bi) := tracks st Bt bs in
  {| s_nodes := s_nodes st; s_next := s_next st; s_elems := s_elems st; s_latest := s_latest st;
     s_wires := s_wires st ++ [(w, {| w_ty := t; w_ids := fun k => match k with Qb => qi | Bt => bi end |})] |}.
(** wires.rs:525-534, mark_wire_outdated *)
Definition mark_wire_outdated (st : state) (d : wdata) : state :=
  fold_left (fun st i => mark_outdated st Bt i) (w_ids d Bt) (fold_left (fun st i => mark_outdated st Qb i) (w_ids d Qb) st).
(** wires.rs:571-578, qubit_wires and bit_wires *)
Definition wires_with (st : state) (k : kind) (id : nat) : list (wire * wdata) := filter (fun x => mem id (w_ids (snd x) k)) (s_wires st).

(** wires.rs:1120-1149, initialize_qubit_wire and initialize_bit_wire *)
Definition initialize_qubit (st : state) (r : nat) : state * wire :=
  let w := s_next st in
  let '(st, _) := add_node st IAlloc [] [] [TQ] in (track_wire st w TQ [r] [], w).
Definition initialize_bit (st : state) (r : nat) : state * wire :=
  let w := s_next st in
  let '(st, _) := add_node st (IConst false) [] [] [TB] in (track_wire st w TB [] [r], w).

Fixpoint nat_list_eqb (a b : list nat) : bool :=
  match a, b with [], [] => true | x :: a, y :: b => Nat.eqb x y && nat_list_eqb a b | _, _ => false end.
Definition data_of (st : state) (w : wire) : option wdata := match find (fun x => Nat.eqb (fst x) w) (s_wires st) with Some x => Some (snd x) | None => None end.
(** wires.rs:650-797, find_typed_wire: the wire, and the arguments that are left. [qs], [bs]: copies of tracked
    elements; [ps]: wires of parameters. *)
Definition find_typed_wire (st : state) (t : ty) (qs bs : list arg) (ps : list wire) : res (state * wire * list arg * list arg * list wire) :=
  match t with
  | TP => match ps with [] => Err NoMatchingParameter | p :: ps => Ok (st, p, qs, bs, ps) end
  | _ =>
      match type_to_pytket t with
      | None => Err UnexpectedInputType
      | Some c =>
          let candidates := (match qs with q :: _ => wires_with st Qb (a_id q) | [] => [] end) ++ (match bs with b :: _ => wires_with st Bt (a_id b) | [] => [] end) in
          let wq := firstn (cq c) qs in
          let wb := firstn (cb c) bs in
          let check (x : wire * wdata) := nat_list_eqb (w_ids (snd x) Qb) (map a_id wq) && nat_list_eqb (w_ids (snd x) Bt) (map a_id wb) && isomorphic (w_ty (snd x)) t in
          '(st, w) <- match find check candidates with
                      | Some x => Ok (st, fst x)
                      | None =>
                          match t with
                          | TQ => match qs with q :: _ => Ok (initialize_qubit st (a_reg q)) | [] => Err Panic end
                          | TB | TT => match bs with b :: _ => Ok (initialize_bit st (a_reg b)) | [] => Err Panic end
                          | _ => Err NoMatchingWire
                          end
                      end ;;
          if existsb a_old wq then Err OutdatedQubit
          else if existsb a_old wb then Err OutdatedBit
          else
            let qs := skipn (cq c) qs in
            let bs := skipn (cb c) bs in
            match data_of st w with
            | None => Err Panic
            | Some d =>
                if ty_eqb (w_ty d) t then Ok (st, w, qs, bs, ps)
                else
                  (* config/type_translators.rs:178-222, transform_typed_value *)
                  o <- match w_ty d, t with TB, TT => Ok make_op | TT, TB => Ok read_op | _, _ => Err CannotTranslateWire end ;;
                  let w' := s_next st in
                  let '(st, _) := add_node st (ITransparent o) [w] [w_ty d] [t] in
                  let st := track_wire st w' (w_ty d) (map a_reg wq) (map a_reg wb) in
                  Ok (mark_wire_outdated st d, w', qs, bs, ps)
            end
      end
  end.
(** wires.rs:825-873, find_typed_wires: wires with values, then parameters. *)
Fixpoint find_typed_wires (st : state) (ts : list ty) (qs bs : list arg) (ps : list wire) : res (state * list wire * list wire) :=
  match ts with
  | [] => Ok (st, [], [])
  | t :: ts =>
      '(st, w, qs, bs, ps) <- find_typed_wire st t qs bs ps ;;
      '(st, vs, us) <- find_typed_wires st ts qs bs ps ;;
      Ok (match t with TP => (st, vs, w :: us) | _ => (st, w :: vs, us) end)
  end.

(** decoder.rs:778-836, register_node_outputs; [ws]: the output wires. *)
Fixpoint register_outputs (st : state) (ws : list wire) (ts : list ty) (qs bs : list arg) : res state :=
  match ws, ts with
  | w :: ws, t :: ts =>
      let c := count_or_default t in
      let wq := firstn (cq c) qs in
      let wb := firstn (cb c) bs in
      if Nat.eqb (length wq) (cq c) && Nat.eqb (length wb) (cb c)
      then register_outputs (track_wire st w t (map a_reg wq) (map a_reg wb)) ws ts (skipn (cq c) qs) (skipn (cb c) bs)
      else Err UnexpectedNodeOutput
  | _, _ => Ok (fold_left (fun st a => mark_outdated st Bt (a_id a)) bs (fold_left (fun st a => mark_outdated st Qb (a_id a)) qs st))
  end.
Definition csum (ts : list ty) : count := fold_right (fun t c => cadd (count_or_default t) c) czero ts.
(** decoder.rs:602-770, wire_up_node and add_node_with_wires *)
Definition add_node_with_wires (st : state) (o : Op) (ti to : list ty) (qi qo bi bo : list arg) (ps : list wire) : res state :=
  if negb (Nat.eqb (cq (csum ti)) (length qi) && Nat.eqb (cb (csum ti)) (length bi) && Nat.eqb (cp (csum ti)) (length ps)) then Err NotEnoughInputRegisters
  else if negb (Nat.eqb (cq (csum to)) (length qo) && Nat.eqb (cb (csum to)) (length bo) && Nat.eqb (cp (csum to)) 0) then Err NotEnoughOutputRegisters
  else
    '(st, vs, us) <- find_typed_wires st ti qi bi ps ;;
    let '(st, ws) := add_node st (IEmit o) (vs ++ us) ti to in
    let st := fold_left (fun st a => mark_outdated st Bt (a_id a)) bi st in
    register_outputs st ws to qo bo.
(** extension/tk1.rs:72-121, build_opaque_tket_op *)
Definition build_opaque (st : state) (o : Op) (qs bs : list arg) (ps : list wire) : res state :=
  let tv := repeat TQ (length qs) ++ repeat TB (length bs) in
  '(st, vs, us) <- find_typed_wires st (tv ++ repeat TP (length ps)) qs bs ps ;;
  let '(st, ws) := add_node st (IEmit o) (vs ++ us) (tv ++ repeat TP (length ps)) tv in
  let st := fold_left (fun st x => track_wire st (fst x) TQ [a_reg (snd x)] []) (combine ws qs) st in
  Ok (fold_left (fun st x => track_wire st (fst x) TB [] [a_reg (snd x)]) (combine (skipn (length qs) ws) bs) st).

(** wires.rs:602-620, pytket_args_to_tracked_elems *)
Definition tracked (st : state) (k : kind) (r : nat) : option arg :=
  match get r (s_latest st k) with
  | None => None
  | Some id => match nth_error (s_elems st k) id with Some x => Some {| a_id := id; a_reg := e_reg x; a_old := e_old x |} | None => None end
  end.
Fixpoint args_to_elems (st : state) (args : list nat) : res (list arg * list arg) :=
  match args with
  | [] => Ok ([], [])
  | r :: args =>
      let k := match get r (s_latest st Bt) with Some _ => Bt | None => Qb end in
      match tracked st k r with
      | None => Err UnknownRegister
      | Some a => '(qs, bs) <- args_to_elems st args ;; Ok (match k with Bt => (qs, a :: bs) | Qb => (a :: qs, bs) end)
      end
  end.
(** decoder.rs:850-860, load_half_turns *)
Fixpoint load_params (st : state) (es : list E) : state * list wire :=
  match es with
  | [] => (st, [])
  | e :: es =>
      let '(st, ws) := add_node st (IParam e) [] [] [TP] in
      let '(st, ws') := load_params st es in (st, ws ++ ws')
  end.
(** decoder.rs:507-537, process_command. The slices panic if there are too few bits. *)
Definition process_command (st : state) (c : pcommand POp E) : res state :=
  '(qs, bs) <- args_to_elems st (p_args c) ;;
  let '(st, ps) := load_params st (p_params c) in
  match lookup (p_op c) (length qs) (length bs) (length ps) with
  | Some d =>
      if Nat.ltb (length bs) (d_take d) || Nat.ltb (length bs) (d_drop d) then Err Panic
      else add_node_with_wires st (d_op d) (d_in d) (d_out d) qs qs (firstn (d_take d) bs) (skipn (d_drop d) bs) ps
  | None => build_opaque st (opaque (p_op c)) qs bs ps
  end.
Fixpoint run_decoder (st : state) (cs : list (pcommand POp E)) : res state :=
  match cs with [] => Ok st | c :: cs => st <- process_command st c ;; run_decoder st cs end.

(** decoder.rs:191-291, init_wire_tracker *)
Fixpoint track_inputs (st : state) (ws : list wire) (ts : list ty) (qs bs : list nat) : res (state * list nat * list nat) :=
  match ws, ts with
  | w :: ws, t :: ts =>
      let c := count_or_default t in
      if Nat.eqb (cq c + cb c + cp c) 0 then track_inputs st ws ts qs bs
      else if negb (Nat.eqb (length (firstn (cq c) qs)) (cq c)) then Err InvalidInputSignature
      else track_inputs (track_wire st w t (firstn (cq c) qs) (firstn (cb c) bs)) ws ts (skipn (cq c) qs) (skipn (cb c) bs)
  | _, _ => Ok (st, qs, bs)
  end.
Definition start (n : nat) : state := {| s_nodes := []; s_next := n; s_wires := []; s_elems := fun _ => []; s_latest := fun _ => [] |}.
Definition init (ti : list ty) (qubits bits : list nat) : res state :=
  '(st, qs, bs) <- track_inputs (start (length ti)) (seq 0 (length ti)) ti qubits bits ;;
  Ok (fst (tracks (fst (tracks st Qb qs)) Bt bs)).

Fixpoint all_some {A} (l : list (option A)) : res (list A) :=
  match l with [] => Ok [] | Some a :: l => l <- all_some l ;; Ok (a :: l) | None :: _ => Err Panic end.
(** wires.rs:460-473, known_pytket_qubits and known_pytket_bits; [perm]: output_qubit_permutation (see
    PermModel). *)
Definition known_qubits (st : state) (perm : list nat) : res (list arg) :=
  all_some (map (fun i => match nth_error (s_latest st Qb) (nth i perm i) with Some x => tracked st Qb (fst x) | None => None end) (seq 0 (length (s_latest st Qb)))).
Definition known_bits (st : state) : res (list arg) := all_some (map (fun x => tracked st Bt (fst x)) (s_latest st Bt)).
(** decoder.rs:314-398, the loop of finish. An output of a type that has no translation is an error
    here; the code leaves it unconnected. *)
Fixpoint find_outputs (st : state) (ts : list ty) (qs bs : list arg) (ps : list wire) : res (state * list wire * list arg) :=
  match ts with
  | [] => Ok (st, [], qs)
  | t :: ts =>
      '(st, w, qs, bs, ps) <- find_typed_wire st t qs bs ps ;;
      '(st, ws, qs) <- find_outputs st ts qs bs ps ;;
      Ok (st, w :: ws, qs)
  end.
(** decoder.rs:421-451, add_implicit_qfree_operations *)
Fixpoint free_qubits (st : state) (qs : list arg) : state :=
  match qs with
  | [] => st
  | q :: qs =>
      match wires_with st Qb (a_id q) with
      | [] => free_qubits st qs
      | _ =>
          match find_typed_wire st TQ [q] [] [] with
          | Ok (st, w, _, _, _) => free_qubits (fst (add_node st IFree [w] [TQ] [])) qs
          | Err _ => free_qubits st qs
          end
      end
  end.
(** decoder.rs:108-171, new; 453-505, run_decoder; 304-418, finish. *)
Definition decode (p : pcircuit POp E) (ti to : list ty) (perm : list nat) (out_params : list E) : res (tcircuit Op E) :=
  st <- init ti (p_qubits p) (p_bits p) ;;
  st <- run_decoder st (p_commands p) ;;
  qs <- known_qubits st perm ;;
  bs <- known_bits st ;;
  let '(st, ps) := load_params st out_params in
  '(st, ws, qs) <- find_outputs st to qs bs ps ;;
  let st := free_qubits st qs in
  Ok {| t_inputs := combine (combine (seq 0 (length ti)) (map count_or_default ti)) ti; t_nodes := s_nodes st; t_outputs := combine ws to |}.
(** decoder.rs:122-129: the signature if there is none. *)
Definition default_signature (p : pcircuit POp E) : list ty := repeat TQ (length (p_qubits p)) ++ repeat TB (length (p_bits p)).
End Decoder.
Arguments s_nodes {Op E}. Arguments s_next {Op E}. Arguments s_wires {Op E}. Arguments s_elems {Op E}. Arguments s_latest {Op E}.
Arguments add_node {Op E}. Arguments track {Op E}. Arguments tracks {Op E}. Arguments track_wire {Op E}. Arguments mark_outdated {Op E}. Arguments mark_wire_outdated {Op E}.
Arguments wires_with {Op E}. Arguments initialize_qubit {Op E}. Arguments initialize_bit {Op E}. Arguments data_of {Op E}. Arguments with_elems {Op E}. Arguments upd {A}.
Arguments find_typed_wire {Op E}. Arguments find_typed_wires {Op E}. Arguments register_outputs {Op E}. Arguments add_node_with_wires {Op E}. Arguments build_opaque {Op E}.
Arguments tracked {Op E}. Arguments args_to_elems {Op E}. Arguments load_params {Op E}. Arguments process_command {Op POp E}. Arguments run_decoder {Op POp E}.
Arguments track_inputs {Op E}. Arguments start {Op E}. Arguments init {Op E}. Arguments known_qubits {Op E}. Arguments known_bits {Op E}. Arguments find_outputs {Op E}. Arguments free_qubits {Op E}.
Arguments decode {Op POp E}. Arguments default_signature {POp E}.

(** ** The tables *)
(** tket_json_rs::OpType: those that the decoders know, and others. *)
Inductive optype : Type :=
  | JH | JCX | JCY | JCZ | JCRz | JT | JTdg | JS | JSdg | JV | JVdg | JX | JY | JZ | JRx | JRz | JRy | JCCX | JReset | JMeasure
  | Jnoop | JBarrier | JClExpr | JOther (n : nat).
(** tket_json_rs::clexpr: expressions over numbered variables; [posn] tells which arguments they are.
    ClOp has more operators than the first five. *)
Inductive clop : Type := BitEq | BitNot | BitAnd | BitOr | BitXor | OtherOp (n : nat).
Inductive clarg : Type := ABit (i : nat) | AReg (i : nat) | AInt (n : nat) | ASub (o : clop) (l : list clarg).
Record clexpr : Type := { bit_posn : list (nat * nat); reg_posn : list (nat * list nat); output_posn : list nat; c_op : clop; c_args : list clarg }.
Record operation : Type := { o_type : optype; o_expr : option clexpr }.
(** tket/src/extension/bool.rs, BoolOp without read and make_opaque *)
Inductive boolop : Type := BEq | BNot | BAnd | BOr | BXor.
(** Operations of the decoded circuit. *)
Inductive hop : Type := HTket (o : TketOp) | HBool (o : boolop) | HRead | HMake | HNoop | HBarrier (q b : nat) | HOpaque (o : operation).

(** extension/tket.rs:55-104, encode_tket_op: what is emitted; the others do not give a command. *)
Definition encode_tket_op (o : TketOp) : option optype :=
  match o with
  | H => Some JH | CX => Some JCX | CY => Some JCY | CZ => Some JCZ | CRz => Some JCRz | T => Some JT | Tdg => Some JTdg
  | S => Some JS | Sdg => Some JSdg | V => Some JV | Vdg => Some JVdg | X => Some JX | Y => Some JY | Z => Some JZ
  | Rx => Some JRx | Rz => Some JRz | Ry => Some JRy | Toffoli => Some JCCX | Reset => Some JReset | Measure => Some JMeasure
  | MeasureFree => Some JMeasure
  | QAlloc | QFree | TryQAlloc => None
  end.
(** extension/tket.rs:120-144, op_types *)
Definition tket_op_types : list optype :=
  [JH; JCX; JCY; JCZ; JCRz; JT; JTdg; JS; JSdg; JV; JVdg; JX; JY; JZ; JRx; JRz; JRy; JCCX; JReset; JMeasure].
(** extension/tket.rs:155-182, the match of op_to_hugr *)
Definition decode_tket_op (o : optype) : option TketOp :=
  match o with
  | JH => Some H | JCX => Some CX | JCY => Some CY | JCZ => Some CZ | JCRz => Some CRz | JT => Some T | JTdg => Some Tdg
  | JS => Some S | JSdg => Some Sdg | JV => Some V | JVdg => Some Vdg | JX => Some X | JY => Some Y | JZ => Some Z
  | JRx => Some Rx | JRy => Some Ry | JRz => Some Rz | JCCX => Some Toffoli | JReset => Some Reset | JMeasure => Some Measure
  | _ => None
  end.
(** tket/src/ops.rs:111-126, the signature: qubits, then rotations; Measure gives a native boolean. *)
Definition tket_dec (o : TketOp) : dec hop :=
  {| d_op := HTket o; d_in := repeat TQ (qubits_in o) ++ repeat TP (params_in o);
     d_out := repeat TQ (qubits_out o) ++ repeat (match o with MeasureFree => TT | _ => TB end) (bools_out o); d_take := 0; d_drop := 0 |}.
(** extension/bool.rs:45-73: encoded operators; one output bit. *)
Definition bool_inputs (o : boolop) : nat := match o with BNot => 1 | _ => 2 end.
Definition encode_bool_op (o : boolop) : operation :=
  let n := bool_inputs o in
  {| o_type := JClExpr;
     o_expr := Some {| bit_posn := map (fun i => (i, i)) (seq 0 (n + 1)); reg_posn := []; output_posn := seq 0 1;
                       c_op := match o with BEq => BitEq | BNot => BitNot | BAnd => BitAnd | BOr => BitOr | BXor => BitXor end;
                       c_args := map ABit (seq 0 n) |} |}.
Fixpoint forall_numbered {A} (f : nat -> A -> bool) (i : nat) (l : list A) : bool := match l with [] => true | a :: l => f i a && forall_numbered f (Succ i) l end.
(** extension/bool.rs:132-164: the operator, and how many inputs. *)
Definition decode_clexpr (e : clexpr) : option boolop :=
  if forall_numbered (fun i x => Nat.eqb (fst x) i && Nat.eqb (length (snd x)) 1) 0 (reg_posn e)
     && forall_numbered (fun i a => match a with ABit j | AReg j => Nat.eqb j i | _ => true end) 0 (c_args e)
  then match c_op e with BitEq => Some BEq | BitNot => Some BNot | BitAnd => Some BAnd | BitOr => Some BOr | BitXor => Some BXor | OtherOp _ => None end
  else None.
(** Signatures of BoolOp: opaque booleans. *)
Definition bool_dec (o : boolop) : dec hop :=
  {| d_op := HBool o; d_in := repeat TT (bool_inputs o); d_out := [TT]; d_take := bool_inputs o; d_drop := bool_inputs o |}.
(** config.rs:20-34 and config/decoder_config.rs:71-91: the decoders of an operation, in order; CoreDecoder
    is left out. *)
Definition lookup_op (o : operation) (nq nb np : nat) : option (dec hop) :=
  match o_type o with
  (* extension/prelude.rs:123-163 *)
  | Jnoop => if Nat.eqb np 0 then Some {| d_op := HNoop; d_in := [TQ]; d_out := [TQ]; d_take := nb; d_drop := nb |} else None
  | JBarrier => if Nat.eqb np 0 then Some {| d_op := HBarrier nq nb; d_in := repeat TQ nq ++ repeat TB nb; d_out := repeat TQ nq ++ repeat TB nb; d_take := nb; d_drop := nb |} else None
  (* extension/bool.rs:112-177 *)
  | JClExpr =>
      match o_expr o with
      | None => None
      | Some e => match decode_clexpr e with None => None | Some b => if Nat.eqb np 0 then Some (bool_dec b) else None end
      end
  (* extension/tket.rs:147-195 *)
  | t => match decode_tket_op t with Some op => Some (tket_dec op) | None => None end
  end.
Definition decode_circuit {E} : pcircuit operation E -> list ty -> list ty -> list nat -> list E -> res (tcircuit hop E) := decode lookup_op HOpaque HRead HMake.
