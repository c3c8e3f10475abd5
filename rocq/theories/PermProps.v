(** Properties of register names and of the order of outputs, C35, C38 and C39. *)
From Coq Require Import List Bool Arith ZArith String Lia.
From Verif Require Import PermModel PermSpec PermProofs PermMain.
Import ListNotations.
Local Open Scope string_scope.

(** ** C35. In builds with overflow checks new registers are new, or generating them panics. *)
Theorem C35_checked :
  forall qubits bits n rs,
    (new_qubits true qubits bits n = Some rs -> List.length rs = n /\ NoDup rs /\ forall r, In r rs -> ~ In r qubits) /\
    (new_bits true qubits bits n = Some rs -> List.length rs = n /\ NoDup rs /\ forall r, In r rs -> ~ In r bits).
Proof. exact C35_checked_pf. Qed.

(** ** C35, for all builds, as long as the indices fit in 16 bits. *)
Theorem C35_partial :
  forall checked qubits bits n,
    (room "q" qubits n -> exists rs, new_qubits checked qubits bits n = Some rs /\ List.length rs = n /\ NoDup rs /\ forall r, In r rs -> ~ In r qubits) /\
    (room "c" bits n -> exists rs, new_bits checked qubits bits n = Some rs /\ List.length rs = n /\ NoDup rs /\ forall r, In r rs -> ~ In r bits).
Proof. exact C35_partial_pf. Qed.

(** ** C35 is false beyond: with wrapping arithmetic more than 65536 new registers are not distinct. *)
Theorem C35_wrap_refuted :
  forall qubits bits n rs, (65536 < Z.of_nat n)%Z -> new_qubits false qubits bits n = Some rs -> ~ NoDup rs.
Proof. exact C35_wrap_refuted_pf. Qed.

(** ** C35 is also false of few registers: an index that is 65535 in 16 bits makes the next one 0, which may
    be in use. *)
Theorem C35_index_refuted :
  exists qubits, NoDup qubits /\ new_qubits false qubits [] 1 = Some [q 0] /\ In (q 0) qubits.
Proof. exact C35_index_refuted_pf. Qed.

(** ** C35 is also false between kinds: a bit may be called q[0], and so is the first new qubit. *)
Theorem C35_kind_refuted :
  forall checked, exists bits, NoDup bits /\ new_qubits checked [] bits 1 = Some [q 0] /\ In (q 0) bits.
Proof. exact C35_kind_refuted_pf. Qed.

(** ** C38. The encoded permutation is right exactly of the circuits whose outputs are in the order of the
    registers. *)
Theorem C38_partial :
  forall outs declared, NoDup declared -> NoDup outs -> incl outs declared ->
  exists perm, compute_final_permutation outs declared = Some perm /\ (describes perm outs declared <-> outs = firstn (List.length outs) declared).
Proof. exact C38_partial_pf. Qed.

(** ** C38 is false of two qubits that are swapped. *)
Theorem C38_refuted :
  exists perm, compute_final_permutation [q 1; q 0] [q 0; q 1] = Some perm /\ ~ describes perm [q 1; q 0] [q 0; q 1].
Proof. exact C38_refuted_pf. Qed.

(** ** C38, for encoding and decoding together: the outputs are the first registers, whatever they were. *)
Theorem C38_round_trip_partial :
  forall outs declared, NoDup declared -> NoDup outs -> incl outs declared ->
  exists perm, compute_final_permutation outs declared = Some perm /\ decoded_outputs declared perm (List.length outs) = Some (firstn (List.length outs) declared).
Proof. exact C38_round_trip_partial_pf. Qed.

(** ** C39, for permutations of all registers or of the first ones: what is read as [d] is the [r] with
    [p r = d]. *)
Theorem C39_partial :
  forall tracker perm m, NoDup tracker -> permutes perm tracker -> m <= List.length tracker ->
  (forall k r, nth_error tracker k = Some r -> (In r (map snd perm) <-> k < m)) ->
  exists p l, compute_output_permutation tracker perm = Some p /\ known_pytket_qubits tracker p = Some l /\ reorders perm tracker l.
Proof. exact C39_partial_pf. Qed.

(** ** C39, in particular for total permutations, for which no register is lost. *)
Theorem C39_total :
  forall tracker perm, NoDup tracker -> permutes perm tracker -> incl tracker (map snd perm) ->
  exists p l, compute_output_permutation tracker perm = Some p /\ known_pytket_qubits tracker p = Some l /\ reorders perm tracker l /\ NoDup l /\ forall r, In r l <-> In r tracker.
Proof. exact C39_total_pf. Qed.

(** ** C39 is false of permutations of other registers: of three qubits, with the last two swapped, the last
    is returned twice and the first not at all. *)
Theorem C39_refuted :
  let perm := [(q 1, q 2); (q 2, q 1)] in
  NoDup [q 0; q 1; q 2] /\ permutes perm [q 0; q 1; q 2] /\
  exists p, compute_output_permutation [q 0; q 1; q 2] perm = Some p /\ known_pytket_qubits [q 0; q 1; q 2] p = Some [q 2; q 1; q 2] /\ ~ reorders perm [q 0; q 1; q 2] [q 2; q 1; q 2].
Proof. exact C39_refuted_pf. Qed.

(** ** Instances: a circuit with qubits q[0], q[4] and a register of another name. *)
Definition three : list reg := [q 0; q 4; {| rname := "anc"; rindex := [2; 1]%Z |}].
Example room_three : room "q" three 3.
Proof. split; [lia|]. intros r [<-|[<-|[<-|[]]]] E; try discriminate; simpl; eexists; eexists; (split; [reflexivity|lia]). Qed.
Example new_three : new_qubits true three [] 3 = Some [q 5; q 6; q 7].
Proof. reflexivity. Qed.
(** The last index makes generation panic with overflow checks. *)
Example no_room : new_qubits true [q 65535] [] 1 = None /\ new_qubits true [q 65534] [] 1 = None /\ new_qubits false [q 65535] [] 1 = Some [q 0].
Proof. repeat split. Qed.
Example round_three : compute_final_permutation [q 0; q 4] three = Some (map (fun r => (r, r)) three) /\ decoded_outputs three (map (fun r => (r, r)) three) 2 = Some [q 0; q 4].
Proof. split; reflexivity. Qed.
(** A cycle of three. *)
Definition cycle : list (reg * reg) := [(q 0, q 1); (q 1, q 2); (q 2, q 0)].
Example cycle_permutes : permutes cycle [q 0; q 1; q 2] /\ incl [q 0; q 1; q 2] (map snd cycle).
Proof.
  split; [|intros r; simpl; intuition]. split; [repeat constructor; simpl; intuition discriminate|]. split; [repeat constructor; simpl; intuition discriminate|].
  split; [intros r; simpl; intuition|intros r; simpl; intuition].
Qed.
Example cycle_decoded : decoded_outputs [q 0; q 1; q 2] cycle 3 = Some [q 2; q 0; q 1].
Proof. reflexivity. Qed.

Print Assumptions C35_checked.
Print Assumptions C35_partial.
Print Assumptions C35_wrap_refuted.
Print Assumptions C35_index_refuted.
Print Assumptions C35_kind_refuted.
Print Assumptions C38_partial.
Print Assumptions C38_refuted.
Print Assumptions C38_round_trip_partial.
Print Assumptions C39_partial.
Print Assumptions C39_total.
Print Assumptions C39_refuted.
