(** Proofs of the properties of the operations of small extensions. *)
From Coq Require Import NArith String List Bool Lia.
From Verif Require Import DeclModel DeclSpec.
Import ListNotations.
Local Open Scope string_scope.
Local Open Scope list_scope.

Lemma C106_operations_pf : forall o, load (fst (ext_name o)) (snd (ext_name o)) (type_args o) = Some o.
Proof.
 intro o. destruct o as [ [] | | | ]; reflexivity. Qed.

Lemma C106_only_pf : forall ext name args o, load ext name args = Some o ->
  ext_name o = (ext, name) /\ type_args o = args.
Proof.
  intros ext name args o h. unfold load in h.
  destruct (String.eqb_spec ext "tket.qsystem.random") as [ -> | ].
  { destruct (rop_of_name name) as [ r | ] eqn:e; [ | discriminate ].
    destruct args; [ | discriminate ]. inversion h; subst. unfold rop_of_name in e.
    apply find_some in e. destruct e as (_ & e). apply String.eqb_eq in e. simpl. rewrite e. auto. }
  destruct (String.eqb_spec ext "tket.debug") as [ -> | ].
  { destruct (String.eqb_spec name "StateResult") as [ -> | ]; [ | discriminate ].
    destruct args as [ | [ tag | | ] [ | [ | k | ] [ | ] ] ]; try discriminate. inversion h; subst. auto. }
  destruct (String.eqb_spec ext "tket.global_phase") as [ -> | ].
  { destruct (String.eqb_spec name "global_phase") as [ -> | ]; [ | discriminate ].
    destruct args; try discriminate. inversion h; subst. auto. }
  destruct (String.eqb_spec ext "tket.guppy") as [ -> | ]; [ | discriminate ].
  destruct (String.eqb_spec name "drop") as [ -> | ]; [ | discriminate ].
  destruct args as [ | [ | | t ] [ | ] ]; try discriminate. inversion h; subst. auto.
Qed.

Lemma C106_injective_pf : forall o o', ext_name o = ext_name o' -> type_args o = type_args o' -> o = o'.
Proof.
  intros o o' h1 h2. pose proof (C106_operations_pf o) as a. pose proof (C106_operations_pf o') as b.
  rewrite h1, h2 in a. congruence.
Qed.

Lemma C106_kept_partial_pf : forall o,
  let (i, u) := signature o in
  (total qubits i = total qubits u + match o with ODrop t => qubits t | _ => 0 end)%N
  /\ (total contexts i + match o with ORandom NewRNGContext => 1 | _ => 0 end
      = total contexts u + match o with ORandom DeleteRNGContext => 1
                                      | ODrop t => contexts t | _ => 0 end)%N.
Proof.
  intro o. destruct o as [ [] | tag n | | t ]; cbn [signature total fold_right];
    split; simpl; lia.
Qed.

Lemma C106_drop_refuted_pf : forall n, (0 < n)%N -> exists o,
  load "tket.guppy" "drop" [AType (Array n Qubit)] = Some o
  /\ signature o = ([Array n Qubit], []) /\ ~ affine (Array n Qubit).
Proof.
  intros n h. exists (ODrop (Array n Qubit)). split; [ reflexivity | ]. split; [ reflexivity | ].
  unfold affine. cbn [qubits]. lia.
Qed.

Lemma C106_documented_partial_pf : forall r, r <> RandomFloat ->
  Forall2 is_doc (fst (documented r)) (fst (signature (ORandom r)))
  /\ Forall2 is_doc (snd (documented r)) (snd (signature (ORandom r))).
Proof.
  intros r h. destruct r; try congruence; split; repeat constructor; reflexivity.
Qed.

Lemma C106_float_refuted_pf :
  ~ Forall2 is_doc (snd (documented RandomFloat)) (snd (signature (ORandom RandomFloat)))
  /\ Forall2 is_doc [F 64; RNG] (snd (signature (ORandom RandomFloat)))
  /\ Forall2 is_doc (fst (documented RandomFloat)) (fst (signature (ORandom RandomFloat))).
Proof.
  split; [ | split; repeat constructor ].
  intro h. inversion h as [ | d t ds ts a b ]; subst. cbn in a. discriminate.
Qed.

