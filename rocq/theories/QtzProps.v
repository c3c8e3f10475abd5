(** Properties of the loader for circuits written by quartz, C88 and C89. *)
From Coq Require Import String List Bool Arith Lia Permutation.
From Verif Require Import QtzModel QtzSpec QtzProofs QtzProofs2 QtzMain.
Import ListNotations.

(** ** C88. When qubits come out of each command under the names they went in with, the circuit is loaded, it is well-typed,
    and it means what the commands mean by the names of their wires, whatever the operations are. *)
Theorem C88_meaning_partial :
  forall d, well_formed d ->
    exists c, load d = Some c /\ well_typed c /\ c_qubits c = n_qb d /\ c_params c = n_input_param d /\
      forall (V : Type) (dflt : V) sem inputs, arity sem -> length inputs = n_qb d + n_input_param d ->
        quartz sem d inputs = Some (eval dflt sem c inputs).
Proof. exact C88_meaning_partial_pf. Qed.

(** Whatever is loaded is well-typed; and everything well-typed passes. *)
Theorem C88_typed :
  (forall d c, load d = Some c -> well_typed c) /\ (forall c, well_typed c <-> validate c = true).
Proof. exact C88_typed_pf. Qed.

(** Whatever is loaded has one node for each command, of the same name and in the same order. *)
Theorem C88_names :
  forall d c, load d = Some c -> map (fun n => op_name (fst n)) (c_nodes c) = map opstr (circ d).
Proof. exact C88_names_pf. Qed.

(** A command whose outputs are named otherwise is loaded as if they were not. *)
Theorem C88_renamed_refuted :
  exists d c, load d = Some c /\ exists (sem : op -> list nat -> list nat) inputs r,
    arity sem /\ length inputs = n_qb d + n_input_param d /\ quartz sem d inputs = Some r /\ eval 0 sem c inputs <> r.
Proof. exact C88_renamed_refuted_pf. Qed.

(** ** C89. When the first circuits of the classes have different ids, every class is loaded with all its circuits; the order
    in which the classes come does not matter. *)
Theorem C89_classes_partial :
  forall classes keys css,
    Forall2 (fun l k => exists d r rest, l = d :: r /\ ids d = k :: rest) classes keys -> NoDup keys ->
    Forall2 (fun l cs => Forall2 (fun d c => load d = Some c) l cs) classes css ->
    load_set classes = Some (combine keys css) /\
    forall classes', Permutation classes classes' -> exists m, load_set classes' = Some m /\ Permutation m (combine keys css).
Proof. exact C89_classes_partial_pf. Qed.

(** In general the class under an id is the last one that starts with it. *)
Theorem C89_last :
  forall classes m, load_set classes = Some m ->
    exists l, Forall2 (fun cl e => (exists d r rest, cl = d :: r /\ ids d = fst e :: rest) /\ Forall2 (fun d c => load d = Some c) cl (snd e)) classes l /\
      forall k, find_id m k = find_id (rev l) k.
Proof. exact C89_last_pf. Qed.

(** So with the same id in two classes one of them is lost, and which one depends on the order of a hash map. *)
Theorem C89_lost_refuted :
  exists a b c1 c2, load_class a = Some (0, [c1]) /\ load_class b = Some (0, [c2]) /\ c1 <> c2 /\
    load_set [a; b] = Some [(0, [c2])] /\ load_set [b; a] = Some [(0, [c1])].
Proof. exact C89_lost_refuted_pf. Qed.

(** ** Instances *)
(** rz(p0 + p1) on qubit 1, then cx, then rz(p0) on qubit 0. *)
Definition inst : rep_data := {| n_qb := 2; n_input_param := 2; ids := [7]; circ := [
  {| opstr := "add"; op_outputs := [P 2]; op_inputs := [P 0; P 1] |};
  {| opstr := "rz"; op_outputs := [Q 1]; op_inputs := [Q 1; P 2] |};
  {| opstr := "cx"; op_outputs := [Q 1; Q 0]; op_inputs := [Q 1; Q 0] |};
  {| opstr := "rz"; op_outputs := [Q 0]; op_inputs := [Q 0; P 0] |}] |}.
Example inst_formed : well_formed inst.
Proof.
  unfold well_formed, inst. cbn [n_qb n_input_param circ seq map].
  eapply ip_add; try reflexivity; [simpl; auto|simpl; auto|intros i _ E; discriminate|].
  eapply (ip_gate _ _ _ _ ORz [1] [P 2]); try reflexivity; [constructor; [intros []|constructor]|repeat constructor|repeat constructor|].
  eapply (ip_gate _ _ _ _ OCX [1; 0] []); try reflexivity; [constructor; [intros [E|[]]; discriminate|constructor; [intros []|constructor]]|repeat constructor|constructor|].
  eapply (ip_gate _ _ _ _ ORz [0] [P 0]); try reflexivity; [constructor; [intros []|constructor]|repeat constructor|constructor; [simpl; auto|constructor]|].
  constructor.
Qed.
Example inst_load : load inst = Some {| c_qubits := 2; c_params := 2;
  c_nodes := [(Oradd, [WIn 2; WIn 3]); (ORz, [WIn 1; WOut 0 0]); (OCX, [WOut 1 0; WIn 0]); (ORz, [WOut 2 1; WIn 2])];
  c_outputs := [WOut 3 0; WOut 2 0] |}.
Proof. reflexivity. Qed.
Example inst_typed : exists c, load inst = Some c /\ well_typed c.
Proof. destruct (C88_meaning_partial inst inst_formed) as (c & A & B & _). eauto. Qed.
Example inst_classes : exists c, load_set [[inst; inst]; [{| n_qb := 1; n_input_param := 0; ids := [8]; circ := [] |}]] = Some [(7, [c; c]); (8, [{| c_qubits := 1; c_params := 0; c_nodes := []; c_outputs := [WIn 0] |}])].
Proof. eexists. reflexivity. Qed.

Print Assumptions C88_meaning_partial.
Print Assumptions C88_typed.
Print Assumptions C88_names.
Print Assumptions C88_renamed_refuted.
Print Assumptions C89_classes_partial.
Print Assumptions C89_last.
Print Assumptions C89_lost_refuted.
