(** Model of the traces of rewrites, tket/src/rewrite/trace.rs with rewrite.rs:72-89 and the
    strategies that use them (rewrite/strategy.rs:115-231), and of the calls into TKET1:
    tket1-passes/src/lib.rs:22-188 and tket-py/src/passes/tket1.rs:25-57. *)
From Coq Require Import NArith List Bool Arith.
Import ListNotations.

Section Traces.
(** Bodies of circuits, and rewrites: the nodes that are looked at by a strategy, and what
    hugr's SimpleReplacement::apply does; None if it fails, which leaves the body alone. *)
Variable body_t rw_t : Type.
Variable nodes : rw_t -> list nat.
Variable run : rw_t -> body_t -> option body_t.
(** trace.rs:21 REWRITE_TRACING_ENABLED. *)
Variable tracing : bool.

(** serde_json::Value, as far as traces tell them apart: numbers of u64; anything else. *)
Inductive json := JNull | JNum (n : N) | JArr (l : list json) | JOther.

(** A circuit with the metadata of its parent under the key of traces.  Rewrites replace
    children of the parent and keep its metadata. *)
Record circ := { body : body_t; meta : option json }.
Definition with_meta (c : circ) (j : json) : circ := {| body := body c; meta := Some j |}.
Definition with_body (c : circ) (b : body_t) : circ := {| body := b; meta := meta c |}.

(** hugr's get_metadata_mut: a missing entry is made, as null. *)
Definition meta_mut (c : circ) : json := match meta c with Some j => j | None => JNull end.

(** trace.rs:75-86 enable_rewrite_tracing. *)
Definition enable (c : circ) : circ :=
  if negb tracing then c
  else with_meta c (match meta_mut c with JNull => JArr [] | j => j end).

(** trace.rs:88-110 add_rewrite_trace, for a trace with a count (trace.rs:36-67). *)
Definition add_trace (n : N) (c : circ) : circ * bool :=
  if negb tracing then (c, false)
  else match meta_mut c with
       | JArr l => (with_meta c (JArr (l ++ [JNum n])), true)
       | j => (with_meta c j, false)
       end.

(** trace.rs:54-61 From<&Value>: cut to 16 bits; None is the panic of unwrap. *)
Definition of_json (j : json) : option N :=
  match j with JNum n => Some (N.modulo n 65536) | _ => None end.

(** trace.rs:112-123 rewrite_trace. *)
Definition rewrite_trace (c : circ) : option (list (option N)) :=
  if negb tracing then None
  else match meta c with
       | Some (JArr l) => Some (map of_json l)
       | _ => None
       end.

(** rewrite.rs:82-89 apply_notrace and 72-80 apply: the result, and whether it succeeded. *)
Definition apply_notrace (r : rw_t) (c : circ) : circ * bool :=
  match run r (body c) with Some b => (with_body c b, true) | None => (c, false) end.
Definition apply (r : rw_t) (c : circ) : circ * bool := apply_notrace r (fst (add_trace 1 c)).

Definition mem (n : nat) (l : list nat) : bool := existsb (Nat.eqb n) l.

(** strategy.rs:125-141, the loop of GreedyRewriteStrategy, for rewrites in the order of its
    sorting; None is the panic of expect. *)
Fixpoint greedy (rs : list rw_t) (changed : list nat) (c : circ) : option circ :=
  match rs with
  | [] => Some c
  | r :: rs =>
      if existsb (fun n => mem n changed) (nodes r) then greedy rs changed c
      else match apply r c with
           | (c, true) => greedy rs (changed ++ nodes r) c
           | (_, false) => None
           end
  end.

(** strategy.rs:206-231, the loop of ExhaustiveGreedyStrategy; the counter is a u16, and wraps
    (it panics in a debug build). *)
Fixpoint exhaustive_loop (rs : list rw_t) (changed : list nat) (count : N) (c : circ)
  : option (circ * N) :=
  match rs with
  | [] => Some (c, count)
  | r :: rs =>
      if negb (match changed with [] => true | _ => false end)
         && existsb (fun n => mem n changed) (nodes r)
      then exhaustive_loop rs changed count c
      else match apply_notrace r c with
           | (c, true) => exhaustive_loop rs (changed ++ nodes r) (N.modulo (count + 1) 65536) c
           | (_, false) => None
           end
  end.
Definition exhaustive (rs : list rw_t) (c : circ) : option circ :=
  match exhaustive_loop rs [] 0 c with
  | Some (c, n) => Some (fst (add_trace n c))
  | None => None
  end.
End Traces.

Section Tket1.
(** Circuits and passes in the memory of TKET1; circuits of pytket; texts. *)
Variable circuit pass serial text : Type.
Variable to_vec : serial -> option text.            (* serde_json::to_vec *)
Variable from_str : text -> option serial.          (* serde_json::from_str *)
Variable has_nul : text -> bool.                    (* CString::new fails *)
(** The C library: null is None, success is the error code true. *)
Variable circuit_from_json : text -> option circuit.
Variable circuit_to_json : circuit -> bool * option text.
Variable pass_from_json : text -> option pass.
Variable apply_pass : circuit -> pass -> bool * circuit.

(** What TKET1 has allocated. *)
Record heap := { next : nat; circuits : list (nat * circuit); passes : list (nat * pass);
                 strings : list (nat * text) }.

(** lib.rs:22-37 PassError. *)
Inductive error := Tket1Error | NullPointer | JsonError.
Inductive result A := Ok (a : A) | Err (e : error).
Arguments Ok {A}. Arguments Err {A}.

Fixpoint get {A} (p : nat) (l : list (nat * A)) : option A :=
  match l with [] => None | (q, a) :: l => if Nat.eqb p q then Some a else get p l end.
Fixpoint del {A} (p : nat) (l : list (nat * A)) : list (nat * A) :=
  match l with [] => [] | (q, a) :: l => if Nat.eqb p q then l else (q, a) :: del p l end.
Fixpoint put {A} (p : nat) (x : A) (l : list (nat * A)) : list (nat * A) :=
  match l with [] => [] | (q, a) :: l => if Nat.eqb p q then (q, x) :: l else (q, a) :: put p x l end.

(** Functions give None for undefined behaviour: a pointer that is used or freed when it is not
    allocated. *)

(** lib.rs:90-104 from_serial_circuit. *)
Definition from_serial_circuit (s : serial) (h : heap) : heap * result nat :=
  match to_vec s with
  | None => (h, Err JsonError)
  | Some j =>
      if has_nul j then (h, Err NullPointer)
      else match circuit_from_json j with
           | None => (h, Err JsonError)
           | Some c => ({| next := S (next h); circuits := (next h, c) :: circuits h;
                           passes := passes h; strings := strings h |}, Ok (next h))
           end
  end.

Definition free_string (p : nat) (h : heap) : option heap :=
  match get p (strings h) with
  | None => None
  | Some _ => Some {| next := next h; circuits := circuits h; passes := passes h;
                      strings := del p (strings h) |}
  end.

(** lib.rs:106-132 to_serial_circuit.  The string is freed after it has been read; if it cannot
    be read, the function returns before. *)
Definition to_serial_circuit (p : nat) (h : heap) : option (heap * result serial) :=
  match get p (circuits h) with
  | None => None
  | Some c =>
      let '(ok, mj) := circuit_to_json c in
      let h := match mj with
               | None => h
               | Some j => {| next := S (next h); circuits := circuits h; passes := passes h;
                              strings := (next h, j) :: strings h |}
               end in
      if negb ok then Some (h, Err Tket1Error)
      else match mj with
           | None => Some (h, Err NullPointer)
           | Some j =>
               match from_str j with
               | None => Some (h, Err JsonError)
               | Some s => match free_string (pred (next h)) h with
                           | Some h => Some (h, Ok s)
                           | None => None
                           end
               end
           end
  end.

(** lib.rs:135-142 Drop for Tket1Circuit; 181-188 Drop for Tket1Pass. *)
Definition drop_circuit (p : nat) (h : heap) : option heap :=
  match get p (circuits h) with
  | None => None
  | Some _ => Some {| next := next h; circuits := del p (circuits h); passes := passes h;
                      strings := strings h |}
  end.
Definition drop_pass (p : nat) (h : heap) : option heap :=
  match get p (passes h) with
  | None => None
  | Some _ => Some {| next := next h; circuits := circuits h; passes := del p (passes h);
                      strings := strings h |}
  end.

(** lib.rs:151-161 from_json. *)
Definition from_json (j : text) (h : heap) : heap * result nat :=
  if has_nul j then (h, Err NullPointer)
  else match pass_from_json j with
       | None => (h, Err JsonError)
       | Some q => ({| next := S (next h); circuits := circuits h;
                       passes := (next h, q) :: passes h; strings := strings h |}, Ok (next h))
       end.

(** lib.rs:164-171 run. *)
Definition run_pass (q p : nat) (h : heap) : option (heap * result unit) :=
  match get q (passes h), get p (circuits h) with
  | Some ps, Some c =>
      let '(ok, c) := apply_pass c ps in
      Some ({| next := next h; circuits := put p c (circuits h); passes := passes h;
               strings := strings h |}, if ok then Ok tt else Err Tket1Error)
  | _, _ => None
  end.

(** lib.rs:174-178 run_from_json; the pass is dropped at the end. *)
Definition run_from_json (j : text) (p : nat) (h : heap) : option (heap * result unit) :=
  match from_json j h with
  | (h, Err e) => Some (h, Err e)
  | (h, Ok q) =>
      match run_pass q p h with
      | None => None
      | Some (h, r) => match drop_pass q h with Some h => Some (h, r) | None => None end
      end
  end.

(** tket1.rs:43-48, for one circuit; what was allocated is dropped on every way out. *)
Definition one_circuit (j : text) (s : serial) (h : heap) : option (heap * result serial) :=
  match from_serial_circuit s h with
  | (h, Err e) => Some (h, Err e)
  | (h, Ok p) =>
      match (match run_from_json j p h with
             | None => None
             | Some (h, Err e) => Some (h, Err e)
             | Some (h, Ok _) => to_serial_circuit p h
             end) with
      | None => None
      | Some (h, r) => match drop_circuit p h with Some h => Some (h, r) | None => None end
      end
  end.

(** tket1.rs:41-48 try_for_each, one after the other (they run in parallel in the code): the new
    circuits, or the first error. *)
Fixpoint all_circuits (j : text) (ss : list serial) (h : heap) : option (heap * result (list serial)) :=
  match ss with
  | [] => Some (h, Ok [])
  | s :: ss =>
      match one_circuit j s h with
      | None => None
      | Some (h, Err e) => Some (h, Err e)
      | Some (h, Ok s) =>
          match all_circuits j ss h with
          | None => None
          | Some (h, Err e) => Some (h, Err e)
          | Some (h, Ok ss) => Some (h, Ok (s :: ss))
          end
      end
  end.

Fixpoint set_nth (i : nat) (x : serial) (l : list serial) : list serial :=
  match l, i with
  | [], _ => []
  | _ :: l, 0 => x :: l
  | y :: l, S i => y :: set_nth i x l
  end.

(** tket1.rs:41-48 as it is run by rayon: the circuits are taken in some order, each as a whole
    (threads share nothing but the allocator), and after an error some may be left out.  The
    circuits after it, and an error if there was one. *)
Fixpoint par_circuits (j : text) (order : list nat) (ss : list serial) (h : heap)
  : option (heap * list serial * option error) :=
  match order with
  | [] => Some (h, ss, None)
  | i :: order =>
      match nth_error ss i with
      | None => None
      | Some s =>
          match one_circuit j s h with
          | None => None
          | Some (h, Ok s) => par_circuits j order (set_nth i s ss) h
          | Some (h, Err e) =>
              match par_circuits j order ss h with
              | None => None
              | Some (h, ss, _) => Some (h, ss, Some e)
              end
          end
      end
  end.
End Tket1.
Arguments Ok {A}. Arguments Err {A}.
