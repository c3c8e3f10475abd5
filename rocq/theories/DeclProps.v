(** Properties of the operations of small extensions. *)
From Coq Require Import NArith String List Bool Lia.
From Verif Require Import DeclModel DeclSpec DeclMain.
Import ListNotations.
Local Open Scope string_scope.
Local Open Scope list_scope.

(** ** C106: operations of small extensions are read back, and keep qubits and contexts *)

(** An operation is read back from its extension, name and arguments. *)
Theorem C106_operations : forall o, load (fst (ext_name o)) (snd (ext_name o)) (type_args o) = Some o.
Proof. exact C106_operations_pf. Qed.

(** What is read has the extension, name and arguments that it was read from: nothing else is
    read as an operation. *)
Theorem C106_only : forall ext name args o, load ext name args = Some o ->
  ext_name o = (ext, name) /\ type_args o = args.
Proof. exact C106_only_pf. Qed.

(** Different operations differ in their extension, name or arguments. *)
Theorem C106_injective : forall o o', ext_name o = ext_name o' -> type_args o = type_args o' -> o = o'.
Proof. exact C106_injective_pf. Qed.

(** Qubits and contexts are kept, but for contexts that are made or deleted, and for what is
    dropped. *)
Theorem C106_kept_partial : forall o,
  let (i, u) := signature o in
  (total qubits i = total qubits u + match o with ODrop t => qubits t | _ => 0 end)%N
  /\ (total contexts i + match o with ORandom NewRNGContext => 1 | _ => 0 end
      = total contexts u + match o with ORandom DeleteRNGContext => 1
                                      | ODrop t => contexts t | _ => 0 end)%N.
Proof. exact C106_kept_partial_pf. Qed.

(** Drops are said to be for affine types only, but any number of qubits can be dropped. *)
Theorem C106_drop_refuted : forall n, (0 < n)%N -> exists o,
  load "tket.guppy" "drop" [AType (Array n Qubit)] = Some o
  /\ signature o = ([Array n Qubit], []) /\ ~ affine (Array n Qubit).
Proof. exact C106_drop_refuted_pf. Qed.

(** Random operations have the signatures that their comments give, but for floats. *)
Theorem C106_documented_partial : forall r, r <> RandomFloat ->
  Forall2 is_doc (fst (documented r)) (fst (signature (ORandom r)))
  /\ Forall2 is_doc (snd (documented r)) (snd (signature (ORandom r))).
Proof. exact C106_documented_partial_pf. Qed.

(** Random floats are said to have 32 bits, but have 64; the rest is as documented. *)
Theorem C106_float_refuted :
  ~ Forall2 is_doc (snd (documented RandomFloat)) (snd (signature (ORandom RandomFloat)))
  /\ Forall2 is_doc [F 64; RNG] (snd (signature (ORandom RandomFloat)))
  /\ Forall2 is_doc (fst (documented RandomFloat)) (fst (signature (ORandom RandomFloat))).
Proof. exact C106_float_refuted_pf. Qed.

(** ** Instances: the hypotheses are met *)
Example load_instance : load "tket.qsystem.random" "RandomIntBounded" [] = Some (ORandom RandomIntBounded)
  /\ load "tket.debug" "StateResult" [AStr "s"; ANat 3] = Some (OState "s" 3)
  /\ load "tket.debug" "StateResult" [ANat 3; AStr "s"] = None
  /\ load "tket.debug" "RandomInt" [] = None.
Proof. repeat split; reflexivity. Qed.
Example kept_instance : total qubits (fst (signature (OState "s" 3))) = 3%N
  /\ total contexts (snd (signature (ORandom NewRNGContext))) = 1%N.
Proof. split; reflexivity. Qed.

Print Assumptions C106_operations.
Print Assumptions C106_only.
Print Assumptions C106_injective.
Print Assumptions C106_kept_partial.
Print Assumptions C106_drop_refuted.
Print Assumptions C106_documented_partial.
Print Assumptions C106_float_refuted.
