(** Model of the configuration of the encoder for pytket:
    tket/src/serialize/pytket/config/type_translators.rs:24-150 (the set of type translators with
    its cache) and config/encoder_config.rs:30-197 (emitters, and the encoding of constants).

    Extensions, names of types, and constants of extensions are numbers.  The cache is taken to be
    never poisoned (no panic happens while it is written).  Translators are functions of the type,
    which may put questions to the set; emitters are functions of the constant: what they do to
    the encoder is to make new bits and parameters, in an order. *)
From Coq Require Import List Arith Bool.
Import ListNotations.

(** hugr types: of an extension, with arguments; sums, with a row for each variant; row variables
    (which stand in rows only); others (functions, variables). *)
Inductive ty :=
| TExt (ext name : nat) (args : list ty)
| TSum (rows : list (list ty))
| TRow
| TOther (n : nat).

Definition ty_eq_dec : forall a b : ty, {a = b} + {a <> b}.
Proof.
  fix F 1. intros a b. destruct a as [e n l|l| |n], b as [e' n' l'|l'| |n']; try (right; discriminate).
  - destruct (Nat.eq_dec e e'); [|right; congruence]. destruct (Nat.eq_dec n n'); [|right; congruence].
    destruct (list_eq_dec F l l'); [left|right]; congruence.
  - destruct (list_eq_dec (list_eq_dec F) l l'); [left|right]; congruence.
  - left. reflexivity.
  - destruct (Nat.eq_dec n n'); [left|right]; congruence.
Defined.

(** extension.rs:191-198, RegisterCount. *)
Record count := { c_qubits : nat; c_bits : nat; c_params : nat }.
Definition zero : count := {| c_qubits := 0; c_bits := 0; c_params := 0 |}.
Definition one_bit : count := {| c_qubits := 0; c_bits := 1; c_params := 0 |}.
Definition one_param : count := {| c_qubits := 0; c_bits := 0; c_params := 1 |}.
(** derive_more::Add, extension.rs:183. *)
Definition add (a b : count) : count :=
  {| c_qubits := c_qubits a + c_qubits b; c_bits := c_bits a + c_bits b; c_params := c_params a + c_params b |}.
(** extension.rs:242-245, is_empty, and the filter of type_translators.rs:70. *)
Definition is_empty (c : count) : bool := (c_qubits c =? 0) && (c_bits c =? 0) && (c_params c =? 0).
Definition nonempty (r : option count) : option count :=
  match r with Some c => if is_empty c then None else Some c | None => None end.
(** type_translators.rs:110 and 120-124: no parameters inside other types. *)
Definition no_params (r : option count) : option count :=
  match r with Some c => if c_params c =? 0 then Some c else None | None => None end.

(** extension.rs:145-170, PytketTypeTranslator.  A translator may ask the set about other types
    before it answers. *)
Inductive reply := Done (r : option count) | Ask (t : ty) (k : option count -> reply).
Record translator := { tr_exts : list nat; tr_type : nat -> nat -> list ty -> reply }.

(** The two extensions whose types are parameters, type_translators.rs:84-88. *)
Definition float_ext : nat := 0.
Definition rotation_ext : nat := 1.
Definition is_param_ext (e : nat) : bool := (e =? float_ext) || (e =? rotation_ext).

Definition cache := list (ty * option count).

(** type_translators.rs:24-36, TypeTranslatorSet. *)
Record set := { s_translators : list translator; s_ext : list (nat * list nat); s_cache : cache }.
Definition new_set : set := {| s_translators := []; s_ext := []; s_cache := [] |}.

(** HashMap::entry(ext).or_default().push(idx), and get(..).into_iter().flatten(). *)
Fixpoint push (m : list (nat * list nat)) (e i : nat) : list (nat * list nat) :=
  match m with
  | [] => [(e, [i])]
  | (e', l) :: m => if e' =? e then (e', l ++ [i]) :: m else (e', l) :: push m e i
  end.
Definition push_all (m : list (nat * list nat)) (es : list nat) (i : nat) : list (nat * list nat) :=
  fold_left (fun m e => push m e i) es m.
Fixpoint lookup (m : list (nat * list nat)) (e : nat) : list nat :=
  match m with
  | [] => []
  | (e', l) :: m => if e' =? e then l else lookup m e
  end.

(** type_translators.rs:42-62, add_type_translator. *)
Definition add_translator (s : set) (tr : translator) : set :=
  {| s_translators := s_translators s ++ [tr];
     s_ext := push_all (s_ext s) (tr_exts tr) (length (s_translators s));
     s_cache := [] |}.

Definition cached (c : cache) (t : ty) : option (option count) :=
  match find (fun e => if ty_eq_dec (fst e) t then true else false) c with
  | Some e => Some (snd e)
  | None => None
  end.

Section Internal.
(** The recursive call; [None]: out of fuel. *)
Variable rec : ty -> cache -> option (option count * cache).

(** type_translators.rs:99-108: the sum of options, which stops at the first [None]. *)
Fixpoint row_sum (ts : list ty) (acc : count) (c : cache) : option (option count * cache) :=
  match ts with
  | [] => Some (Some acc, c)
  | TRow :: _ => Some (None, c)
  | t :: ts =>
      match rec t c with
      | None => None
      | Some (None, c) => Some (None, c)
      | Some (Some n, c) => row_sum ts (add acc n) c
      end
  end.

(** A translator and its questions (to type_to_pytket, :69-71). *)
Fixpoint run_reply (r : reply) (c : cache) : option (option count * cache) :=
  match r with
  | Done x => Some (x, c)
  | Ask t k => match rec t c with None => None | Some (x, c) => run_reply (k (nonempty x)) c end
  end.

(** type_translators.rs:115-128. *)
Fixpoint ask_all (trs : list translator) (is : list nat) (e n : nat) (args : list ty) (c : cache)
  : option (option count * cache) :=
  match is with
  | [] => Some (None, c)
  | i :: is =>
      match nth_error trs i with
      | None => None
      | Some tr =>
          match run_reply (tr_type tr e n args) c with
          | None => None
          | Some (Some x, c) => Some (no_params (Some x), c)
          | Some (None, c) => ask_all trs is e n args c
          end
      end
  end.
End Internal.

(** type_translators.rs:76-138, type_to_pytket_internal; the result and the new cache. *)
Fixpoint internal (trs : list translator) (ext : list (nat * list nat)) (fuel : nat) (t : ty) (c : cache)
  : option (option count * cache) :=
  match fuel with
  | 0 => None
  | S fuel =>
      match cached c t with
      | Some r => Some (r, c)
      | None =>
          let insert x := match x with None => None | Some (r, c) => Some (r, (t, r) :: c) end in
          match t with
          | TExt e n args =>
              if is_param_ext e then Some (Some one_param, c)
              else insert (ask_all (internal trs ext fuel) trs (lookup ext e) e n args c)
          | TSum [] => Some (Some zero, c)
          | TSum [[]; []] => Some (Some one_bit, c)
          | TSum [ts] =>
              insert (match row_sum (internal trs ext fuel) ts zero c with
                      | None => None
                      | Some (r, c) => Some (no_params r, c)
                      end)
          | _ => insert (Some (None, c))
          end
      end
  end.

(** type_translators.rs:69-71, type_to_pytket. *)
Definition type_to_pytket (fuel : nat) (s : set) (t : ty) : option (option count * set) :=
  match internal (s_translators s) (s_ext s) fuel t (s_cache s) with
  | None => None
  | Some (r, c) => Some (nonempty r, {| s_translators := s_translators s; s_ext := s_ext s; s_cache := c |})
  end.

(** A use of a set: translators are added and types translated, in some order. *)
Inductive call := Add (tr : translator) | Query (t : ty).
Fixpoint run (fuel : nat) (s : set) (l : list call) : option (list (option count)) :=
  match l with
  | [] => Some []
  | Add tr :: l => run fuel (add_translator s tr) l
  | Query t :: l =>
      match type_to_pytket fuel s t with
      | None => None
      | Some (r, s) => match run fuel s l with None => None | Some rs => Some (r :: rs) end
      end
  end.

(** ** Emitters *)

(** What an emitter makes of a constant. *)
Inductive leaf := LBit (b : bool) | LParam (x : nat).

(** extension.rs:60-102, PytketEmitter: the extensions ([None]: all), whether an operation (a
    number, of an extension) is encoded, and constants (extension, name, arguments, number). *)
Record emitter := {
  em_exts : option (list nat);
  em_op : nat -> nat -> option nat;
  em_const : nat -> nat -> list ty -> nat -> option (list leaf)
}.

(** encoder_config.rs:30-42. *)
Record config := { g_emitters : list emitter; g_ext : list (nat * list nat); g_general : list nat }.
Definition new_config : config := {| g_emitters := []; g_ext := []; g_general := [] |}.

(** encoder_config.rs:51-66, add_emitter. *)
Definition add_emitter (g : config) (em : emitter) : config :=
  let i := length (g_emitters g) in
  match em_exts em with
  | Some es => {| g_emitters := g_emitters g ++ [em]; g_ext := push_all (g_ext g) es i; g_general := g_general g |}
  | None => {| g_emitters := g_emitters g ++ [em]; g_ext := g_ext g; g_general := g_general g ++ [i] |}
  end.
Definition configure (ems : list emitter) : config := fold_left add_emitter ems new_config.

Definition pick (g : config) (is : list nat) : list emitter :=
  flat_map (fun i => match nth_error (g_emitters g) i with Some em => [em] | None => [] end) is.

(** encoder_config.rs:173-183, emitters_for_extension. *)
Definition for_extension (g : config) (e : nat) : list emitter := pick g (lookup (g_ext g) e ++ g_general g).
(** encoder_config.rs:186-197, emitters_for_extensions: the set of numbers, in order. *)
Definition for_extensions (g : config) (es : list nat) : list emitter :=
  let ids := flat_map (lookup (g_ext g)) es ++ g_general g in
  pick g (filter (fun i => existsb (Nat.eqb i) ids) (seq 0 (length (g_emitters g)))).

Fixpoint first {A B : Type} (f : A -> option B) (l : list A) : option B :=
  match l with [] => None | x :: l => match f x with Some y => Some y | None => first f l end end.

(** encoder_config.rs:90-106, op_to_pytket: operation [o] of extension [e]; the result is what the
    emitter that succeeds does. *)
Definition op_to_pytket (g : config) (e o : nat) : option nat := first (fun em => em_op em e o) (for_extension g e).

(** ** Constants *)

(** hugr values: a variant of a sum, a constant of an extension, a function. *)
Inductive value :=
| VSum (tag : nat) (rows : list (list ty)) (vals : list value)
| VExt (e n : nat) (args : list ty) (p : nat)
| VFun.

(** Type::used_extensions (hugr). *)
Fixpoint used (t : ty) : list nat :=
  match t with
  | TExt e _ args => e :: flat_map used args
  | TSum rows => flat_map (flat_map used) rows
  | _ => []
  end.

(** The encoder: bits not in use, the number of the next new bit (value_tracker.rs:302-307), the
    bits set to 1 by commands, and the parameters (:312-315). *)
Record enc := { e_unused : list nat; e_next : nat; e_set : list nat; e_params : list nat }.

Definition new_bit (s : enc) : nat * enc :=
  match e_unused s with
  | i :: l => (i, {| e_unused := l; e_next := e_next s; e_set := e_set s; e_params := e_params s |})
  | [] => (e_next s, {| e_unused := []; e_next := S (e_next s); e_set := e_set s; e_params := e_params s |})
  end.
(** set_bits_op(&[true]) and emit_command, encoder_config.rs:125-128, bool.rs:84-88. *)
Definition const_bit (b : bool) (s : enc) : nat * enc :=
  let (i, s) := new_bit s in
  (i, if b then {| e_unused := e_unused s; e_next := e_next s; e_set := e_set s ++ [i]; e_params := e_params s |} else s).

(** TrackedValues (without qubits), value_tracker.rs:139-146. *)
Record tracked := { t_bits : list nat; t_params : list nat }.
Definition no_values : tracked := {| t_bits := []; t_params := [] |}.
(** value_tracker.rs:544-548, append. *)
Definition append (a b : tracked) : tracked :=
  {| t_bits := t_bits a ++ t_bits b; t_params := t_params a ++ t_params b |}.

(** What the emitters do: bool.rs:75-91, float.rs:62-95, rotation.rs:59-90 (one leaf each). *)
Fixpoint emit (l : list leaf) (s : enc) : tracked * enc :=
  match l with
  | [] => (no_values, s)
  | LBit b :: l =>
      let (i, s) := const_bit b s in
      let (vs, s) := emit l s in (append {| t_bits := [i]; t_params := [] |} vs, s)
  | LParam x :: l =>
      let i := length (e_params s) in
      let (vs, s) := emit l {| e_unused := e_unused s; e_next := e_next s; e_set := e_set s; e_params := e_params s ++ [x] |} in
      (append {| t_bits := []; t_params := [i] |} vs, s)
  end.

Inductive outcome := Encoded (vs : tracked) (s : enc) | NotEncoded (s : enc) | OutOfFuel.

(** encoder_config.rs:113-161, const_to_pytket: the loop over the queue. *)
Fixpoint encode_queue (g : config) (fuel : nat) (queue : list value) (vs : tracked) (s : enc) : outcome :=
  match fuel with
  | 0 => OutOfFuel
  | S fuel =>
      match queue with
      | [] => Encoded vs s
      | VSum tag [[]; []] vals :: queue =>
          let (i, s) := const_bit (tag =? 1) s in
          Encoded {| t_bits := [i]; t_params := [] |} s
      | VSum _ [_] vals :: queue => encode_queue g fuel (queue ++ vals) vs s
      | VSum _ _ _ :: queue => encode_queue g fuel queue vs s
      | VExt e n args p :: queue =>
          match first (fun em => em_const em e n args p) (for_extensions g (used (TExt e n args))) with
          | Some l => let (vs', s) := emit l s in encode_queue g fuel queue (append vs vs') s
          | None => NotEncoded s
          end
      | VFun :: _ => NotEncoded s
      end
  end.

Fixpoint vsize (v : value) : nat :=
  match v with VSum _ _ vals => S (list_sum (map vsize vals)) | _ => 1 end.
Definition const_to_pytket (g : config) (v : value) (s : enc) : outcome :=
  encode_queue g (S (vsize v)) [v] no_values s.
