(** Properties of compute operations and of functions in packages. *)
From Coq Require Import String List Arith Bool Lia.
From Verif Require Import CompModel CompSpec CompProofs CompMain.
Import ListNotations.
Local Open Scope string_scope.
Local Open Scope list_scope.

(** ** C101: a circuit that is loaded by name is the first function of that name *)

(** The search succeeds exactly if the first module that defines the name does so, first, by a
    function without type parameters, and the modules before have module roots; this function is
    what is returned. *)
Theorem C101_found_partial : forall ms name i n, name <> "" ->
  (find_function_in_modules ms name = LOk (i, n) <-> first_in ms name i n 0).
Proof. exact C101_found_partial_pf. Qed.

(** If all roots are modules, "not found" is the answer exactly if no module defines the name. *)
Theorem C101_not_found_partial : forall ms name, name <> "" ->
  (forall m, In m ms -> m_is_module m = true) ->
  ((exists l, find_function_in_modules ms name = LErr (FunctionNotFound l))
   <-> forall m, In m ms -> ~ defines m name).
Proof. exact C101_not_found_partial_pf. Qed.

(** Every function of the package is in the list that comes with "not found". *)
Theorem C101_available : forall ms name l,
  find_function_in_modules ms name = LErr (FunctionNotFound l) ->
  forall m f, In m ms -> defines m f -> In f l.
Proof. exact C101_available_pf. Qed.

(** The list also has names of no function: an empty one for each other child. *)
Theorem C101_listed_refuted : exists ms l,
  find_function_in_modules ms "main" = LErr (FunctionNotFound l)
  /\ In "" l /\ forall m, In m ms -> ~ defines m "".
Proof. exact C101_listed_refuted_pf. Qed.

(** A generic function hides the circuits of that name in later modules. *)
Theorem C101_parametric_refuted : forall name k p n m, name <> "" -> first_def m name n 0 ->
  m_is_module m = true ->
  find_function_in_modules
    [ {| m_is_module := true; m_children := [(k, MDefn name (S p))] |}; m ] name
  = LErr (Parametric k)
  /\ find_function_in_modules [ m ] name = LOk (0, n).
Proof. exact C101_parametric_refuted_pf. Qed.

(** A search for the empty name finds what is not a function. *)
Theorem C101_empty_refuted : forall before n after,
  (forall c, In c before -> exists f p, snd c = MDefn f p /\ f <> "") ->
  find_function_in_modules
    [ {| m_is_module := true; m_children := before ++ (n, MOther) :: after |} ] ""
  = LErr (InvalidParent n).
Proof. exact C101_empty_refuted_pf. Qed.

(** ** C102: types and operations of compute extensions survive being written and read *)

(** A type of a compute extension is read back, by that extension only. *)
Theorem C102_types : forall ext c,
  of_type ext (custom_type ext c) = Some c
  /\ forall ext', ext <> ext' -> of_type ext' (custom_type ext c) = None.
Proof. exact C102_types_pf. Qed.

(** An operation is got back from its definition and arguments. *)
Theorem C102_operations : forall o, instantiate (compute_op_def o) (type_args o) = Some o.
Proof. exact C102_operations_pf. Qed.

(** The arguments that make an operation are those listed in the specification, and the
    operation has them. *)
Theorem C102_arguments : forall d args,
  (takes d args <-> exists o, instantiate d args = Some o)
  /\ forall o, instantiate d args = Some o -> compute_op_def o = d /\ type_args o = args.
Proof. exact C102_arguments_pf. Qed.

(** Two operations with the same definition and arguments are the same. *)
Theorem C102_injective : forall o o',
  compute_op_def o = compute_op_def o' -> type_args o = type_args o' -> o = o'.
Proof. exact C102_injective_pf. Qed.

(** A call that is built on the output of a lookup takes a context, this function and the
    inputs that were looked up; reading its result gives the context and the outputs. *)
Theorem C102_builder : forall ext l i o f,
  (exists n, l = LookupById n (to_rv i) (to_rv o))
  \/ (exists s, l = LookupByName s (to_rv i) (to_rv o)) ->
  snd (signature ext l) = [ETyp f] ->
  exists c r q, add_call ext f = Built c
    /\ fst (signature ext c) = ETyp (custom_type ext CContext) :: ETyp f :: map ETyp i
    /\ snd (signature ext c) = [ETyp r]
    /\ add_read_result ext r = Built q
    /\ fst (signature ext q) = [ETyp r]
    /\ snd (signature ext q) = ETyp (custom_type ext CContext) :: map ETyp o.
Proof. exact C102_builder_pf. Qed.

(** A function with row variables cannot be called by the builder: an error.  A wire that is not
    a function of this extension is a panic. *)
Theorem C102_builder_refused : forall ext,
  (forall i o, ~ concrete i \/ ~ concrete o ->
     add_call ext (custom_type ext (CFunc i o)) = BuildError)
  /\ (forall t, add_call ext t = Panic <-> forall i o, of_type ext t <> Some (CFunc i o)).
Proof. exact C102_builder_refused_pf. Qed.

(** Contexts are neither lost nor made but by their operations: getting one makes one, disposing
    of it takes one, and calls and reads pass it on, in the call's result. *)
Theorem C102_contexts : forall ext o,
  (forall r t, In r (user_rows o) -> In t r -> ~ token ext (ETyp t)) ->
  exists a b, tokens ext (fst (signature ext o)) a /\ tokens ext (snd (signature ext o)) b
    /\ a + (match o with GetContext => 1 | _ => 0 end)
       = b + (match o with DisposeContext => 1 | _ => 0 end).
Proof. exact C102_contexts_pf. Qed.

(** Types that are not of the extension are read as its modules and contexts: arguments and
    bounds are not looked at. *)
Theorem C102_unchecked_refuted : forall ext args b,
  of_type ext (TCustom ext "module" args b) = Some CModule
  /\ of_type ext (TCustom ext "context" args b) = Some CContext
  /\ (args <> [] -> TCustom ext "context" args b <> custom_type ext CContext).
Proof. exact C102_unchecked_refuted_pf. Qed.

(** ** Instances: the hypotheses are met *)
Definition pkg : list module :=
  [ {| m_is_module := true; m_children := [(1, MDefn "helper" 1); (2, MOther)] |};
    {| m_is_module := true; m_children := [(1, MOther); (5, MDefn "main" 0); (7, MDefn "main" 0)] |} ].
Example found_instance : find_function_in_modules pkg "main" = LOk (1, 5)
  /\ first_in pkg "main" 1 5 0.
Proof. split; [ reflexivity | ]. apply C101_found_partial; [ discriminate | reflexivity ]. Qed.
Example not_found_instance :
  find_function_in_modules pkg "other"
  = LErr (FunctionNotFound ["helper"; ""; ""; "main"; "main"])
  /\ forall m, In m pkg -> ~ defines m "other".
Proof.
  split; [ reflexivity | ]. apply C101_not_found_partial; [ discriminate | | ].
  - intros m [ <- | [ <- | [] ] ]; reflexivity.
  - eexists. reflexivity.
Qed.
Example parametric_instance : find_function_in_modules pkg "helper" = LErr (Parametric 1).
Proof. reflexivity. Qed.
Example empty_instance : find_function_in_modules pkg "" = LErr (InvalidParent 2).
Proof. reflexivity. Qed.
Example call_instance : let i := [usize_t; TBase 1 true] in let o := [TBase 2 true] in
  instantiate dcall (type_args (Call i o)) = Some (Call i o)
  /\ takes dcall [ARow (to_rv i); ARow (to_rv o)]
  /\ ~ concrete [EVar 0]
  /\ instantiate dcall [ARow [EVar 0]; ARow []] = None
  /\ forall t, In t i -> ~ token "wasm" (ETyp t).
Proof.
  intros i o. split; [ reflexivity | ]. split; [ | split; [ | split; [ reflexivity | ] ] ].
  - apply C102_arguments. eexists. reflexivity.
  - intro h. destruct (h _ (or_introl eq_refl)). discriminate.
  - intros t [ <- | [ <- | [] ] ] h; inversion h.
Qed.
Example builder_instance :
  add_call "gpu" (custom_type "gpu" (CFunc [ETyp usize_t] [])) = Built (Call [usize_t] [])
  /\ add_call "gpu" (custom_type "wasm" (CFunc [ETyp usize_t] [])) = Panic
  /\ add_call "gpu" (custom_type "gpu" (CFunc [EVar 0] [])) = BuildError.
Proof. repeat split; reflexivity. Qed.

Print Assumptions C101_found_partial.
Print Assumptions C101_not_found_partial.
Print Assumptions C101_available.
Print Assumptions C101_listed_refuted.
Print Assumptions C101_parametric_refuted.
Print Assumptions C101_empty_refuted.
Print Assumptions C102_types.
Print Assumptions C102_operations.
Print Assumptions C102_arguments.
Print Assumptions C102_injective.
Print Assumptions C102_builder.
Print Assumptions C102_builder_refused.
Print Assumptions C102_contexts.
Print Assumptions C102_unchecked_refuted.
