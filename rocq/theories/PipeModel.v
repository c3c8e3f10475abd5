(** Model of the pipeline of passes and of entry points: tket-qsystem/src/lib.rs:90-186 and
    qis-compiler/rust/lib.rs:142-152, 229-316.

    The passes that the pipeline runs are given (some are modelled in other files); hugr's
    force_order is taken to be what its documentation says: a topological order in which the next
    node is one of the least rank among those whose predecessors are all placed.  Which one of
    several is left open in the theorems; here it is the first one.

    hugr-llvm names functions by a prefix, their name, a dot and the number of the node
    (Namer::name_func); nothing else about the code of functions is modelled than the number of
    their parameters. *)
From Coq Require Import Ascii String List Arith Bool ZArith.
Import ListNotations.

(** ** The order of operations: lib.rs:145-186 *)

(** Operations as far as the ranks distinguish them. *)
Inductive opk :=
| TkQAlloc | TkTryQAlloc | TkQFree | TkOther          (* TketOp *)
| QsTryQAlloc | QsQFree | QsOther                     (* QSystemOp *)
| FutRead | FutOther                                  (* FutureOpDef *)
| Other.

Definition cast_tket (o : opk) : bool :=
  match o with TkQAlloc | TkTryQAlloc | TkQFree | TkOther => true | _ => false end.
Definition cast_qsystem (o : opk) : bool :=
  match o with QsTryQAlloc | QsQFree | QsOther => true | _ => false end.

(** lib.rs:149-157. *)
Definition is_quantum (o : opk) : bool := cast_tket o || cast_qsystem o.
Definition is_qalloc (o : opk) : bool :=
  match o with TkQAlloc | TkTryQAlloc => true | _ => false end
  || match o with QsTryQAlloc => true | _ => false end.
Definition is_qfree (o : opk) : bool :=
  match o with TkQFree => true | _ => false end || match o with QsQFree => true | _ => false end.
Definition is_read (o : opk) : bool := match o with FutRead => true | _ => false end.

(** lib.rs:168-182. *)
Definition rank (o : opk) : Z :=
  if is_qfree o then (-3)%Z
  else if is_quantum o && negb (is_qalloc o) then (-2)%Z
  else if is_qalloc o then (-1)%Z
  else if negb (is_read o) then 0%Z
  else 1%Z.

(** A region: its nodes, their operations, and the nodes that must come before each (sources of
    its inputs and of order edges; nodes of other regions do not matter). *)
Record region := { r_nodes : list nat; r_op : nat -> opk; r_deps : nat -> list nat }.

Definition mem (n : nat) (l : list nat) : bool := existsb (Nat.eqb n) l.
(** All predecessors that are in the region are placed. *)
Definition ready (g : region) (todo : list nat) (n : nat) : bool :=
  forallb (fun p => negb (mem p todo)) (r_deps g n).

(** The first one of the least rank. *)
Fixpoint least (g : region) (l : list nat) : option nat :=
  match l with
  | [] => None
  | n :: l => match least g l with
              | None => Some n
              | Some m => if (rank (r_op g n) <=? rank (r_op g m))%Z then Some n else Some m
              end
  end.

Definition remove_node (n : nat) (l : list nat) : list nat :=
  filter (fun m => negb (Nat.eqb m n)) l.

(** force_order of hugr: the nodes in the order of the edges that are added; None if there is a
    cycle. *)
Fixpoint force_order (fuel : nat) (g : region) (todo : list nat) : option (list nat) :=
  match todo, fuel with
  | [], _ => Some []
  | _, O => None
  | _, S fuel =>
      match least g (filter (ready g todo) todo) with
      | None => None
      | Some n => match force_order fuel g (remove_node n todo) with
                  | Some l => Some (n :: l)
                  | None => None
                  end
      end
  end.

(** ** Entry points *)

(** Children of the module: definitions and declarations of functions, with the number of
    inputs, and others. *)
Inductive child := FuncDefn (name : string) (inputs : nat) | FuncDecl (name : string) | OtherChild.
(** The entry point: the module, or a node; module children are numbered. *)
Inductive entry := EModule | ENode (n : nat).
Record hugr := { h_children : list (nat * child); h_entry : entry }.

Definition is_main (c : nat * child) : bool :=
  match snd c with FuncDefn f _ => String.eqb f "main" | _ => false end.
Definition lookup (n : nat) (h : hugr) : option child :=
  match find (fun c => Nat.eqb (fst c) n) (h_children h) with
  | Some c => Some (snd c)
  | None => None
  end.
Definition set_entry (e : entry) (h : hugr) : hugr :=
  {| h_children := h_children h; h_entry := e |}.

(** A pass: the hugr afterwards, and whether it succeeded. *)
Definition pass := hugr -> hugr * bool.
Fixpoint run_all (ps : list pass) (h : hugr) : hugr * bool :=
  match ps with
  | [] => (h, true)
  | p :: ps => let (h, ok) := p h in if ok then run_all ps h else (h, false)
  end.

(** The options (lib.rs:40-46) and the passes that they switch on: lib.rs:109-137.  Passes that
    get the entry point are given it (RemoveDeadFuncsPass). *)
Record options := { o_fold : bool; o_mono : bool; o_order : bool; o_lazify : bool }.
Record passes := {
  p_mono : pass; p_dead : entry -> pass; p_lower : pass; p_bools : pass; p_drops : pass;
  p_arrays : pass; p_inline : pass; p_fold : pass; p_order : pass }.
Definition sequence (o : options) (p : passes) (e : entry) : list pass :=
  (if o_mono o then [p_mono p; p_dead p e] else [])
  ++ [p_lower p] ++ (if o_lazify o then [p_bools p] else [])
  ++ [p_drops p; p_arrays p; p_inline p]
  ++ (if o_fold o then [p_fold p] else []) ++ (if o_order o then [p_order p] else []).

(** lib.rs:94-143 QSystemPass::run. *)
Definition run_qsystem (o : options) (p : passes) (h : hugr) : hugr * bool :=
  let start := match h_entry h with
               | EModule => match find is_main (h_children h) with
                            | Some c => Some (ENode (fst c))
                            | None => None                          (* NoMain *)
                            end
               | e => Some e
               end in
  match start with
  | None => (h, false)
  | Some e =>
      let (h, ok) := run_all (sequence o p e) (set_entry EModule h) in
      if ok then (set_entry e h, true) else (h, false)
  end.

(** Namer::name_func of hugr-llvm, with the prefix of qis-compiler (lib.rs:324); numbers in
    unary, since only their being told apart matters. *)
Fixpoint unary (n : nat) : string :=
  match n with O => EmptyString | S n => String (Ascii.ascii_of_nat 49) (unary n) end.
Definition name_func (f : string) (n : nat) : string :=
  ("__hugr__." ++ f ++ "." ++ unary n)%string.

(** qis-compiler/rust/lib.rs:229-263 get_entry_point_name. *)
Definition get_entry_point_name (h : hugr) : option string :=
  match h_entry h with
  | EModule => match filter is_main (h_children h) with
               | [c] => Some (name_func "main" (fst c))
               | _ => None
               end
  | ENode n => match lookup n h with
               | Some (FuncDefn f inputs) =>
                   if Nat.eqb inputs 0 then Some (name_func f n) else None
               | _ => None
               end
  end.

(** The module that hugr-llvm emits: a function for each definition, with its parameters and the
    node it comes from. *)
Definition emit_module (h : hugr) : list (string * (nat * nat)) :=
  flat_map (fun c => match snd c with
                     | FuncDefn f inputs => [(name_func f (fst c), (inputs, fst c))]
                     | _ => []
                     end) (h_children h).

(** Calls that the wrapper makes: setup, the function (with its parameters and its node),
    teardown. *)
Inductive call := Setup | CallFn (given expected node : nat) | Teardown.

(** lib.rs:265-297 wrap_main: module.get_function finds the first function of the name. *)
Definition wrap_main (m : list (string * (nat * nat))) (hugr_entry : string) : option (list call) :=
  match find (fun f => String.eqb (fst f) hugr_entry) m with
  | Some (_, (inputs, n)) => Some [Setup; CallFn 0 inputs n; Teardown]
  | None => None
  end.

(** lib.rs:318-341 compile, up to the wrapper; process_hugr (142-152): QSystemPass with its
    default options, then inline_constant_functions again. *)
Definition default_options : options :=
  {| o_fold := false; o_mono := true; o_order := true; o_lazify := true |}.
Definition compile (p : passes) (h : hugr) : hugr * option (list call) :=
  match get_entry_point_name h with
  | None => (h, None)
  | Some name =>
      let (h, ok) := run_qsystem default_options p h in
      if ok
      then let (h, ok) := p_inline p h in
           if ok then (h, wrap_main (emit_module h) name) else (h, None)
      else (h, None)
  end.
