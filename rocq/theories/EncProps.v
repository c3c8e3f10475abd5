(** * Properties C36, C37: encoding circuits for pytket *)
From Coq Require Import List Bool Arith Lia.
From Verif Require Import EncSpec EncModel EncFacts EncInv EncStep EncProofs EncCases EncMain.
Import ListNotations.

(** ** C36 Encoding a circuit preserves its meaning: for circuits in which qubits are used once, bits
    that an operation takes over have no other user, no wire mixes old and new registers, only last
    outputs are unused, and no new qubit or false bit follows the loss of one. Missing: all others, for
    which it is false (see below), and unsupported operations, which are emitted late. *)
Theorem C36_partial : forall (Op E V P : Type) (zero one : V) (run : Op -> list V -> list V -> list P -> list V * list V) (prun : Op -> list P -> list P)
    (den : E -> P) (trash : Op -> V -> V) (out_params : Op -> list E -> list E) (oq ob : Op -> nat),
  (forall o q b p, length (fst (run o q b p)) = oq o /\ length (snd (run o q b p)) = ob o) ->
  (forall o es, map den (out_params o es) = prun o (map den es)) ->
  forall (c : circuit Op E) nq nb params, tidy Op E out_params oq ob c -> clean c -> total_p (inputs c) <= length params ->
  exists enc, encode out_params c nq nb params = Some enc /\
    faithful Op E V P zero one run prun den trash c (commands enc) (in_values enc) (out_values enc).
Proof. exact C36_partial_pf. Qed.

(** A qubit allocated after another was measured and freed is not in state zero. *)
Theorem C36_alloc_refuted : tidy gate unit gparams gq gb c_alloc /\
  exists enc, encode gparams c_alloc 0 0 [] = Some enc /\
    ~ faithful gate unit bool unit false true grun gparams (fun e => e) (fun _ v => v) c_alloc (commands enc) (in_values enc) (out_values enc).
Proof. exact C36_alloc_refuted_pf. Qed.

(** A constant false after the loss of a bit may be true. *)
Theorem C36_const_refuted : tidy gate unit gparams gq gb c_const /\
  exists enc, encode gparams c_const 0 0 [] = Some enc /\
    ~ faithful gate unit bool unit false true grun gparams (fun e => e) (fun _ v => v) c_const (commands enc) (in_values enc) (out_values enc).
Proof. exact C36_const_refuted_pf. Qed.

(** A bit that is still needed is overwritten: by the operation that reads it, *)
Theorem C36_shared_refuted : scoped c_shared /\ typed gate unit gparams gq gb c_shared /\ linear c_shared /\ unmixed c_shared /\ dead_last c_shared /\ clean c_shared /\
  exists enc, encode gparams c_shared 0 0 [] = Some enc /\
    ~ faithful gate unit bool unit false true grun gparams (fun e => e) (fun _ v => v) c_shared (commands enc) (in_values enc) (out_values enc).
Proof. exact C36_shared_refuted_pf. Qed.

(** or by a measurement, since another wire with the same register is not used. *)
Theorem C36_alias_refuted : scoped c_alias /\ typed gate unit gparams gq gb c_alias /\ linear c_alias /\ unmixed c_alias /\ dead_last c_alias /\ clean c_alias /\
  exists enc, encode gparams c_alias 0 0 [] = Some enc /\
    ~ faithful gate unit bool unit false true grun gparams (fun e => e) (fun _ v => v) c_alias (commands enc) (in_values enc) (out_values enc).
Proof. exact C36_alias_refuted_pf. Qed.

(** An input bit that is not used shares its register with the next one. *)
Theorem C36_input_refuted : scoped c_input /\ typed gate unit gparams gq gb c_input /\ linear c_input /\ unshared c_input /\ unmixed c_input /\ clean c_input /\
  exists enc, encode gparams c_input 0 0 [] = Some enc /\ in_values enc = [[Reg Bt 0]; [Reg Bt 0]].
Proof. exact C36_input_refuted_pf. Qed.

(** ** C37 Live wires have distinct registers, none of which is on the free list; at all times, for such
    circuits. Missing: all others, for which it is false (see below). *)
Theorem C37_partial : forall (Op E : Type) (out_params : Op -> list E -> list E) (oq ob : Op -> nat) (c : circuit Op E) nq nb params l1 l2,
  tidy Op E out_params oq ob c -> total_p (inputs c) <= length params -> nodes c = l1 ++ l2 ->
  exists st0 ii st, register_inputs c (start nq nb) params (inputs c) = Some (st0, ii) /\ encode_nodes out_params c st0 l1 = Some st /\
    forall k, NoDup (flat_map (fun x => regs_of k (fst (snd x))) (wires st)) /\
      forall i, In i (flat_map (fun x => regs_of k (fst (snd x))) (wires st)) -> i < size st k /\ ~ In i (unused st k).
Proof. exact C37_partial_pf. Qed.

(** A wire made of an old and of a new qubit has the same register twice. *)
Theorem C37_mixed_refuted : scoped c_mixed /\ typed gate unit gparams gq gb c_mixed /\ linear c_mixed /\ unshared c_mixed /\ dead_last c_mixed /\ clean c_mixed /\
  exists enc, encode gparams c_mixed 0 0 [] = Some enc /\ out_values enc = [[Reg Qb 0; Reg Qb 0]].
Proof. exact C37_mixed_refuted_pf. Qed.

(** ** Unsupported operations *)
(** Without them the lazy encoder is the one above. *)
Theorem C36_lazy : forall (Op E : Type) (out_params : Op -> list E -> list E) (opaque : Op -> bool) (c : circuit Op E) nq nb params,
  (forall n o, In n (nodes c) -> what n = IEmit o -> opaque o = false) ->
  encode_lazy out_params c opaque nq nb params = encode out_params c nq nb params.
Proof. exact C36_lazy_pf. Qed.

(** With them a gate can be given the same qubit twice. *)
Theorem C37_opaque_refuted : tidy gate unit gparams gq gb c_opaque /\ clean c_opaque /\
  exists enc, encode_lazy gparams c_opaque gopaque 0 0 [] = Some enc /\ In (COp Cx [0; 0] [] [] [] []) (commands enc) /\
    ~ faithful gate unit bool unit false true grun gparams (fun e => e) (fun _ v => v) c_opaque (commands enc) (in_values enc) (out_values enc).
Proof. exact C37_opaque_refuted_pf. Qed.

(** ** Instances: a circuit with allocations, gates, measurements, constants, a conjunction and a
    transparent operation meets the conditions. *)
Lemma fine_tidy : tidy gate unit gparams gq gb c_fine.
Proof. constructor; [solve_scoped|solve_typed|solve_linear|solve_unshared|solve_unmixed|solve_dead]. Qed.
Lemma fine_clean : clean c_fine.
Proof. solve_clean. Qed.
Example fine_encoded :
  exists enc, encode gparams c_fine 0 0 [] = Some enc /\
    commands enc = [COp Cx [0; 1] [] [] [] []; COp Meas [0] [] [] [2] []; COp AndB [] [] [2; 0] [] []; COp MeasFree [1] [] [] [3] []; CSet 4] /\
    out_values enc = [[Reg Bt 2]; [Reg Bt 3]; [Reg Bt 1]; [Reg Bt 4]; [Reg Bt 0]] /\
    faithful gate unit bool unit false true grun gparams (fun e => e) (fun _ v => v) c_fine (commands enc) (in_values enc) (out_values enc).
Proof.
  destruct (C36_partial gate unit bool unit false true grun gparams (fun e => e) (fun _ v => v) gparams gq gb grun_len) with (c := c_fine) (nq := 0) (nb := 0) (params := @nil unit) as (enc & A & B).
  - intros o es. rewrite !map_id. reflexivity.
  - exact fine_tidy.
  - exact fine_clean.
  - vm_compute. lia.
  - exists enc. split; [exact A|]. vm_compute in A. injection A as <-. split; [reflexivity|]. split; [reflexivity|exact B].
Qed.
Example fine_registers : exists st0 ii st, register_inputs c_fine (start 0 0) [] (inputs c_fine) = Some (st0, ii) /\ encode_nodes gparams c_fine st0 (firstn 4 (nodes c_fine)) = Some st /\
  length (wires st) = 5 /\ NoDup (flat_map (fun x => regs_of Bt (fst (snd x))) (wires st)).
Proof.
  destruct (C37_partial gate unit gparams gq gb c_fine 0 0 [] (firstn 4 (nodes c_fine)) (skipn 4 (nodes c_fine))) as (st0 & ii & st & A & B & C); [exact fine_tidy|vm_compute; lia|reflexivity|].
  exists st0, ii, st. split; [exact A|]. split; [exact B|]. split; [|apply (C Bt)]. vm_compute in A. injection A as <- _. vm_compute in B. injection B as <-. reflexivity.
Qed.
Example fine_lazy : encode_lazy gparams c_fine gopaque 0 0 [] = encode gparams c_fine 0 0 [].
Proof. apply C36_lazy. intros n o Hin W. simpl in Hin. ins_; simpl in W; try discriminate W; injection W as <-; reflexivity. Qed.

Print Assumptions C36_partial.
Print Assumptions C36_alloc_refuted.
Print Assumptions C36_const_refuted.
Print Assumptions C36_shared_refuted.
Print Assumptions C36_alias_refuted.
Print Assumptions C36_input_refuted.
Print Assumptions C37_partial.
Print Assumptions C37_mixed_refuted.
Print Assumptions C36_lazy.
Print Assumptions C37_opaque_refuted.
