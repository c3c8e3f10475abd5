(** Properties C22 - C26: the synthesis of controlled and daggered operations. *)
From Coq Require Import Reals Lra Lia List Bool Arith FunctionalExtensionality.
From Verif Require Import QComplex QState OpsModel GateSpec GateFacts ModifierModel ModifierOps ModifierProofs ModifierBody ModifierMain.
Import ListNotations.
Open Scope R_scope.

(** ** C22 *)

(** For every unitary gate, every list of controls, every angle: the synthesis succeeds, the
    wires come out in order, and the emitted gates act as the gate when all controls are 1
    and as the identity otherwise. Excluded: Z with two or more controls, CZ with one or more
    (see C24), Toffoli with one or more (see C25). *)
Theorem C22_controlled_gate : forall op cs ts a,
  is_quantum op = true -> length ts = qubits_in op -> NoDup (cs ++ ts) ->
  match op with Z => (length cs <= 1)%nat | CZ => cs = [] | Toffoli => cs = [] | _ => True end ->
  exists r, synthesize op false cs ts a = Ok r /\
    r_cs r = cs /\ r_out r = ts /\ r_anc r = [] /\
    forall psi, run (r_gates r) psi = controlled cs op ts a psi.
Proof. exact C22_controlled_gate_pf. Qed.

(** The same for a whole body of gates and global phases: the controlled body is the body,
    performed when all controls are 1. *)
Theorem C22_controlled_body : forall cs body, NoDup cs ->
  Forall gate_wf body ->
  (forall g q, In g body -> In q (gate_qubits g) -> ~ In q cs) ->
  (forall g, In g body -> match g with
     | G Z _ _ => (length cs <= 1)%nat | G CZ _ _ => cs = [] | G Toffoli _ _ => cs = [] | _ => True end) ->
  exists b, modify_body false cs body = Ok b /\ b_cs b = cs /\ (forall q, b_env b q = q) /\
    Forall gate_wf (b_gates b) /\
    forall psi, run (b_gates b) psi = when_all1 cs (run body) psi.
Proof. exact C22_controlled_body_pf. Qed.

(** Deleting the global phases at the end of the resolution (whatever the circuit) leaves no
    phase and changes the action by one global phase only. *)
Theorem C22_phase_deletion : forall gs,
  Forall (fun g => is_phase g = false) (delete_phase gs) /\
  eq_upto_phase (run gs) (run (delete_phase gs)).
Proof. exact C22_phase_deletion_pf. Qed.

(** ** C23 *)

(** Undoing and redoing: with dagger set the synthesised circuit is the two-sided inverse of
    the one synthesised without, for every gate and any controls, also in the cases excluded
    from C22. *)
Theorem C23_dagger_inverse : forall op cs ts a,
  is_quantum op = true -> length ts = qubits_in op -> NoDup (cs ++ ts) ->
  exists r rd, synthesize op false cs ts a = Ok r /\ synthesize op true cs ts a = Ok rd /\
    r_cs rd = cs /\
    forall psi, run (r_gates rd) (run (r_gates r) psi) = psi /\
                run (r_gates r) (run (r_gates rd) psi) = psi.
Proof. exact C23_dagger_inverse_pf. Qed.

(** Daggered bodies: the reverse-order synthesis of a body undoes the (controlled) body. *)
Theorem C23_dagger_body : forall cs body, NoDup cs ->
  Forall gate_wf body ->
  (forall g q, In g body -> In q (gate_qubits g) -> ~ In q cs) ->
  (forall g, In g body -> match g with
     | G Z _ _ => (length cs <= 1)%nat | G CZ _ _ => cs = [] | G Toffoli _ _ => cs = [] | _ => True end) ->
  exists b, modify_body true cs body = Ok b /\ b_cs b = cs /\ (forall q, b_env b q = q) /\
    Forall gate_wf (b_gates b) /\
    forall psi, run (b_gates b) (when_all1 cs (run body) psi) = psi /\
                when_all1 cs (run body) (run (b_gates b) psi) = psi.
Proof. exact C23_dagger_body_pf. Qed.

(** ** C24: refuted *)

(** With any number of controls in the excluded range the emitted circuit is not the
    multi-controlled Z, not even up to a global phase. *)
Theorem C24_controlled_cz_refuted : forall cs c t a, cs <> [] -> NoDup (cs ++ [c; t]) ->
  exists r, synthesize CZ false cs [c; t] a = Ok r /\
    ~ eq_upto_phase (run (r_gates r)) (controlled cs CZ [c; t] a).
Proof. exact C24_controlled_cz_refuted_pf. Qed.

Theorem C24_controlled_z_refuted : forall cs t a, (2 <= length cs)%nat -> NoDup (cs ++ [t]) ->
  exists r, synthesize Z false cs [t] a = Ok r /\
    ~ eq_upto_phase (run (r_gates r)) (controlled cs Z [t] a).
Proof. exact C24_controlled_z_refuted_pf. Qed.

(** What it is instead: the controlled CRz of one half turn. *)
Theorem C24_controlled_cz_actual : forall cs c t a, cs <> [] -> NoDup (cs ++ [c; t]) ->
  exists r, synthesize CZ false cs [c; t] a = Ok r /\
    forall psi, run (r_gates r) psi = controlled cs CRz [c; t] 1 psi.
Proof. exact C24_controlled_cz_actual_pf. Qed.

(** ** C25: refuted *)

(** With one or more controls the first two wires of a Toffoli come out exchanged. *)
Theorem C25_toffoli_order_refuted : forall cs x y t a, cs <> [] -> NoDup (cs ++ [x; y; t]) ->
  exists r, synthesize Toffoli false cs [x; y; t] a = Ok r /\ r_out r = [y; x; t] /\ r_out r <> [x; y; t] /\
    forall psi, run (r_gates r) psi = controlled cs Toffoli [x; y; t] a psi.
Proof. exact C25_toffoli_order_refuted_pf. Qed.

(** Every other gate keeps its wires in order, under any controls and dagger. *)
Theorem C25_wire_order : forall op d cs ts a,
  is_quantum op = true -> length ts = qubits_in op -> NoDup (cs ++ ts) -> op <> Toffoli \/ cs = [] ->
  exists r, synthesize op d cs ts a = Ok r /\ r_out r = ts /\ r_cs r = cs.
Proof. exact C25_wire_order_pf. Qed.

(** ** C26 *)

(** The recursion ends, with no panic or error, for all gates, controls and dagger; only
    well-formed gates of the gate set on distinct qubits are emitted. *)
Theorem C26_synthesis_total : forall op d cs ts a,
  is_quantum op = true -> length ts = qubits_in op -> NoDup (cs ++ ts) ->
  exists r, synthesize op d cs ts a = Ok r /\ Forall gate_wf (r_gates r).
Proof. exact C26_synthesis_total_pf. Qed.

Theorem C26_phase_total : forall d cs a, NoDup cs ->
  exists r, synthesize_phase d cs a = Ok r /\ r_cs r = cs /\ Forall gate_wf (r_gates r) /\
    forall psi, run (r_gates r) psi = when_all1 cs (Sc (cexp (PI * (if d then - a else a)))) psi.
Proof. exact C26_phase_total_pf. Qed.

(** Operations that are not unitary are refused under any control or dagger, and passed
    through unchanged otherwise. *)
Theorem C26_non_unitary_refused : forall op d cs ts a, is_quantum op = false ->
  synthesize op d cs ts a =
    if (negb (length cs =? 0)%nat || d)%bool then Err else Ok (MRes [G op ts a] cs [] ts).
Proof. exact C26_non_unitary_refused_pf. Qed.

(** ** Instances: the hypotheses are met by non-trivial cases *)
Example C22_instance : exists r, synthesize H false [0; 1; 2; 3]%nat [4]%nat 0 = Ok r /\
  forall psi, run (r_gates r) psi = controlled [0; 1; 2; 3]%nat H [4]%nat 0 psi.
Proof.
  destruct (C22_controlled_gate H [0; 1; 2; 3]%nat [4]%nat 0) as (r & E & _ & _ & _ & Hs);
    [reflexivity | reflexivity | repeat constructor; simpl; intuition lia | exact I | eauto].
Qed.
Example C22_body_instance : exists b,
  modify_body false [0; 1]%nat [G H [2]%nat 0; GPhase (/ 3); G CX [2; 3]%nat 0; G Rz [3]%nat (/ 5)] = Ok b /\
  forall psi, run (b_gates b) psi =
    when_all1 [0; 1]%nat (run [G H [2]%nat 0; GPhase (/ 3); G CX [2; 3]%nat 0; G Rz [3]%nat (/ 5)]) psi.
Proof.
  destruct (C22_controlled_body [0; 1]%nat [G H [2]%nat 0; GPhase (/ 3); G CX [2; 3]%nat 0; G Rz [3]%nat (/ 5)])
    as (b & E & _ & _ & _ & Hs).
  - repeat constructor; simpl; intuition lia.
  - repeat constructor; simpl; intuition lia.
  - simpl; intros g q Hg Hq [E|[E|[]]]; subst; destruct Hg as [<-|[<-|[<-|[<-|[]]]]]; simpl in Hq; lia.
  - simpl; intros g Hg; destruct Hg as [<-|[<-|[<-|[<-|[]]]]]; exact I.
  - eauto.
Qed.
Example C24_instance : exists r, synthesize CZ false [0]%nat [1; 2]%nat 0 = Ok r /\
  ~ eq_upto_phase (run (r_gates r)) (controlled [0]%nat CZ [1; 2]%nat 0).
Proof. apply C24_controlled_cz_refuted; [discriminate | repeat constructor; simpl; intuition lia]. Qed.
Example C25_instance : exists r, synthesize Toffoli false [0]%nat [1; 2; 3]%nat 0 = Ok r /\
  r_out r = [2; 1; 3]%nat.
Proof.
  destruct (C25_toffoli_order_refuted [0]%nat 1 2 3 0) as (r & E & Ho & _);
    [discriminate | repeat constructor; simpl; intuition lia | eauto].
Qed.

Print Assumptions C22_controlled_gate.
Print Assumptions C22_controlled_body.
Print Assumptions C22_phase_deletion.
Print Assumptions C23_dagger_inverse.
Print Assumptions C23_dagger_body.
Print Assumptions C24_controlled_cz_refuted.
Print Assumptions C24_controlled_z_refuted.
Print Assumptions C24_controlled_cz_actual.
Print Assumptions C25_toffoli_order_refuted.
Print Assumptions C25_wire_order.
Print Assumptions C26_synthesis_total.
Print Assumptions C26_phase_total.
Print Assumptions C26_non_unitary_refused.
