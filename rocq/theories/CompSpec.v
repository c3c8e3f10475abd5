(** Vocabulary: rows without variables, tokens of a context, the first definition of a name. *)
From Coq Require Import String List Arith Bool.
From Verif Require Import CompModel.
Import ListNotations.
Local Open Scope string_scope.
Local Open Scope list_scope.

Definition concrete (r : row_rv) : Prop := forall e, In e r -> exists t, e = ETyp t.

(** The arguments that an operation takes. *)
Inductive takes : cdef -> list arg -> Prop :=
| takes_get : takes dget []
| takes_dispose : takes ddispose []
| takes_id : forall n i o, takes dby_id [ANat n; ARow i; ARow o]
| takes_name : forall s i o, takes dby_name [AStr s; ARow i; ARow o]
| takes_call : forall i o, concrete i -> concrete o -> takes dcall [ARow i; ARow o]
| takes_read : forall o, concrete o -> takes dread [ARow o].

(** Values that stand for a context: the context itself, a context that may be absent, and the
    result of a call, which holds it. *)
Inductive token (ext : string) : elem -> Prop :=
| tok_context : forall a b, token ext (ETyp (TCustom ext "context" a b))
| tok_option : forall a b, token ext (ETyp (TOption (TCustom ext "context" a b)))
| tok_result : forall a b, token ext (ETyp (TCustom ext "result" a b)).

(** The number of tokens in a row. *)
Inductive tokens (ext : string) : row_rv -> nat -> Prop :=
| toks_nil : tokens ext [] 0
| toks_yes : forall e r n, token ext e -> tokens ext r n -> tokens ext (e :: r) (S n)
| toks_no : forall e r n, ~ token ext e -> tokens ext r n -> tokens ext (e :: r) n.

(** The rows of an operation that come from its arguments. *)
Definition user_rows (o : cop) : list row :=
  match o with Call i o => [i; o] | ReadResult o => [o] | _ => [] end.

(** A package in which a module is the first to define a name, and a child is the first in it. *)
Definition defines (m : module) (name : string) : Prop :=
  exists n p, In (n, MDefn name p) (m_children m).
Definition first_def (m : module) (name : string) (n p : nat) : Prop :=
  exists a b, m_children m = a ++ (n, MDefn name p) :: b
              /\ forall k q, ~ In (k, MDefn name q) a.
Definition first_in (ms : list module) (name : string) (i n p : nat) : Prop :=
  exists before m after, ms = before ++ m :: after /\ length before = i
    /\ (forall x, In x before -> m_is_module x = true /\ ~ defines x name)
    /\ m_is_module m = true /\ first_def m name n p.
