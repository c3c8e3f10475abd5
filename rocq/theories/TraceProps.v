(** Properties of traces of rewrites and of calls into TKET1. *)
From Coq Require Import NArith List Bool Arith Lia.
From Verif Require Import TraceModel TraceSpec TraceProofs TraceMain.
Import ListNotations.

(** ** C103: the trace of a circuit tells which rewrites were applied to it *)

(** The greedy strategy adds one entry of 1 for each rewrite that it applies; these are the ones
    that do not meet earlier ones. *)
Theorem C103_greedy : forall body_t rw_t nodes run rs (c c' : circ body_t) l,
  rewrite_trace body_t true c = Some l ->
  greedy body_t rw_t nodes run true rs [] c = Some c' ->
  exists app, picks rw_t nodes [] rs app /\ runs body_t rw_t run app (body _ c) (body _ c')
    /\ rewrite_trace body_t true c' = Some (l ++ repeat (Some 1%N) (length app)).
Proof. exact C103_greedy_pf. Qed.

(** The exhaustive strategy adds one entry: the number of rewrites that it applies, if it is below
    65536. *)
Theorem C103_exhaustive_partial : forall body_t rw_t nodes run rs (c c' : circ body_t) l,
  rewrite_trace body_t true c = Some l ->
  exhaustive body_t rw_t nodes run true rs c = Some c' ->
  exists app, picks rw_t nodes [] rs app /\ runs body_t rw_t run app (body _ c) (body _ c')
    /\ ((N.of_nat (length app) < 65536)%N ->
        rewrite_trace body_t true c' = Some (l ++ [Some (N.of_nat (length app))])).
Proof. exact C103_exhaustive_partial_pf. Qed.

(** From a circuit for which tracing was just enabled, the trace is the list of what happened,
    in order, whichever rewrites it was. *)
Theorem C103_history : forall body_t rw_t run (es : list (event rw_t)) (c : circ body_t) b',
  meta _ c = None \/ meta _ c = Some JNull ->
  happens body_t rw_t run es (body _ c) b' ->
  (forall e, In e es -> (N.of_nat (size e) < 65536)%N) ->
  let step c e := match e with
                  | One r => fst (apply body_t rw_t run true r c)
                  | Many rs => fst (add_trace body_t true (N.of_nat (length rs))
                                 (fold_left (fun c r => fst (apply_notrace body_t rw_t run r c)) rs c))
                  end in
  body _ (fold_left step es (enable body_t true c)) = b'
  /\ rewrite_trace body_t true (fold_left step es (enable body_t true c))
     = Some (map (fun e => Some (N.of_nat (size e))) es).
Proof. exact C103_history_pf. Qed.

(** Without the feature nothing is traced or changed; without enabling, nothing is traced, and
    bodies stay what they are. *)
Theorem C103_off : forall body_t n (c : circ body_t),
  enable body_t false c = c /\ add_trace body_t false n c = (c, false)
  /\ rewrite_trace body_t false c = None
  /\ (rewrite_trace body_t true c = None ->
      rewrite_trace body_t true (fst (add_trace body_t true n c)) = None
      /\ snd (add_trace body_t true n c) = false)
  /\ body _ (fst (add_trace body_t true n c)) = body _ c.
Proof. exact C103_off_pf. Qed.

(** Enabling again keeps the trace. *)
Theorem C103_enable_again : forall body_t (c : circ body_t) l,
  rewrite_trace body_t true c = Some l ->
  rewrite_trace body_t true (enable body_t true c) = Some l /\ body _ (enable body_t true c) = body _ c.
Proof. exact C103_enable_again_pf. Qed.

(** A rewrite that fails is in the trace. *)
Theorem C103_failed_refuted : forall body_t rw_t run r (c : circ body_t) l,
  rewrite_trace body_t true c = Some l -> run r (body _ c) = None ->
  exists c', apply body_t rw_t run true r c = (c', false) /\ body _ c' = body _ c
    /\ rewrite_trace body_t true c' = Some (l ++ [Some 1%N]).
Proof. exact C103_failed_refuted_pf. Qed.

(** 65536 rewrites that are applied together are traced as none. *)
Theorem C103_wrapped_refuted : forall body_t rw_t nodes run rs (c : circ body_t) l,
  rewrite_trace body_t true c = Some l ->
  (N.of_nat (length rs) = 65536)%N ->
  (forall r, nodes r = []) -> (forall r b, run r b = Some b) ->
  exists c', exhaustive body_t rw_t nodes run true rs c = Some c'
    /\ rewrite_trace body_t true c' = Some (l ++ [Some 0%N]).
Proof. exact C103_wrapped_refuted_pf. Qed.

(** Entries that were not written here are cut to 16 bits, or panic; other metadata under the key
    makes enabling do nothing. *)
Theorem C103_metadata_refuted : forall body_t (b : body_t),
  rewrite_trace body_t true {| body := b; meta := Some (JArr [JNum 65537; JOther]) |}
    = Some [Some 1%N; None]
  /\ rewrite_trace body_t true (enable body_t true {| body := b; meta := Some JOther |}) = None.
Proof. exact C103_metadata_refuted_pf. Qed.

(** ** C104: calls into TKET1 free what they allocate, and run the pass on every circuit *)

(** Running a pass on circuits never uses or frees a pointer that is not allocated; circuits and
    passes are freed on every way out, and nothing else is. *)
Theorem C104_memory : forall circuit pass serial text to_vec from_str has_nul cfj ctj pfj ap j ss
    (h : heap circuit pass text),
  exists h' r, all_circuits circuit pass serial text to_vec from_str has_nul cfj ctj pfj ap j ss h
               = Some (h', r)
    /\ circuits _ _ _ h' = circuits _ _ _ h /\ passes _ _ _ h' = passes _ _ _ h.
Proof. exact C104_memory_pf. Qed.

(** Strings are freed too, if everything that TKET1 writes can be read and it writes nothing on
    failure. *)
Theorem C104_strings_partial : forall circuit pass serial text to_vec from_str has_nul cfj ctj pfj ap
    j ss (h h' : heap circuit pass text) r,
  readable circuit serial text from_str ctj ->
  all_circuits circuit pass serial text to_vec from_str has_nul cfj ctj pfj ap j ss h = Some (h', r) ->
  strings _ _ _ h' = strings _ _ _ h.
Proof. exact C104_strings_partial_pf. Qed.

(** The call succeeds exactly if every circuit goes through, and gives what the pass makes of
    each. *)
Theorem C104_result : forall circuit pass serial text to_vec from_str has_nul cfj ctj pfj ap
    j ss ss' (h : heap circuit pass text),
  (exists h', all_circuits circuit pass serial text to_vec from_str has_nul cfj ctj pfj ap j ss h
              = Some (h', Ok ss'))
  <-> Forall2 (converts circuit pass serial text to_vec from_str has_nul cfj ctj pfj ap j) ss ss'.
Proof. exact C104_result_pf. Qed.

(** In whichever order the circuits are taken, and whichever are left out after an error: memory is
    freed as above, circuits that were not taken stay, and an error is reported only if some
    circuit does not go through.  Without one, each circuit that was taken is what the pass
    makes of it. *)
Theorem C104_parallel : forall circuit pass serial text to_vec from_str has_nul cfj ctj pfj ap
    j order ss (h : heap circuit pass text),
  NoDup order -> (forall i, In i order -> i < length ss) ->
  let conv := converts circuit pass serial text to_vec from_str has_nul cfj ctj pfj ap j in
  exists h' ss' r,
    par_circuits circuit pass serial text to_vec from_str has_nul cfj ctj pfj ap j order ss h
    = Some (h', ss', r)
    /\ circuits _ _ _ h' = circuits _ _ _ h /\ passes _ _ _ h' = passes _ _ _ h
    /\ (readable circuit serial text from_str ctj -> strings _ _ _ h' = strings _ _ _ h)
    /\ length ss' = length ss
    /\ (forall i, ~ In i order -> nth_error ss' i = nth_error ss i)
    /\ (r = None <-> forall i s, In i order -> nth_error ss i = Some s -> exists s', conv s s')
    /\ (r = None -> forall i s, In i order -> nth_error ss i = Some s ->
          exists s', nth_error ss' i = Some s' /\ conv s s').
Proof. exact C104_parallel_pf. Qed.

(** If all are taken, the result does not depend on the order. *)
Theorem C104_order : forall circuit pass serial text to_vec from_str has_nul cfj ctj pfj ap
    j order ss (h h' : heap circuit pass text) ss',
  NoDup order -> (forall i, In i order <-> i < length ss) ->
  par_circuits circuit pass serial text to_vec from_str has_nul cfj ctj pfj ap j order ss h
    = Some (h', ss', None) ->
  Forall2 (converts circuit pass serial text to_vec from_str has_nul cfj ctj pfj ap j) ss ss'.
Proof. exact C104_order_pf. Qed.

(** A string that cannot be read is never freed. *)
Theorem C104_leak_refuted : forall circuit pass serial text to_vec from_str has_nul cfj ctj pfj ap
    j s t c p c' t' (h : heap circuit pass text),
  to_vec s = Some t -> has_nul t = false -> cfj t = Some c -> has_nul j = false ->
  pfj j = Some p -> ap c p = (true, c') -> ctj c' = (true, Some t') -> from_str t' = None ->
  exists h' n, all_circuits circuit pass serial text to_vec from_str has_nul cfj ctj pfj ap j [s] h
               = Some (h', Err JsonError)
    /\ strings _ _ _ h' = (n, t') :: strings _ _ _ h.
Proof. exact C104_leak_refuted_pf. Qed.

(** ** Instances: the hypotheses are met *)
(** Circuits are numbers of gates, rewrites remove one gate at a node. *)
Definition nodes0 (r : nat) : list nat := [r].
Definition run0 (r b : nat) : option nat := match b with 0 => None | S b => Some b end.
Definition c0 : circ nat := enable nat true {| body := 9; meta := None |}.
Example trace_instance : rewrite_trace nat true c0 = Some []
  /\ option_map (rewrite_trace nat true) (greedy nat nat nodes0 run0 true [1; 2; 1; 3] [] c0)
     = Some (Some [Some 1%N; Some 1%N; Some 1%N])
  /\ option_map (rewrite_trace nat true) (exhaustive nat nat nodes0 run0 true [1; 2; 1; 3] c0)
     = Some (Some [Some 3%N])
  /\ option_map (body nat) (exhaustive nat nat nodes0 run0 true [1; 2; 1; 3] c0) = Some 6.
Proof. repeat split; reflexivity. Qed.
Example happens_instance : happens nat nat run0 [One 1; Many [2; 3]; One 4] 9 5.
Proof. repeat (econstructor; try reflexivity). Qed.
Example failed_instance : exists c, rewrite_trace nat true c = Some [] /\ run0 1 (body _ c) = None.
Proof. exists (enable nat true {| body := 0; meta := None |}). split; reflexivity. Qed.
Example wrapped_instance : exists (rs : list unit), (N.of_nat (length rs) = 65536)%N.
Proof. exists (repeat tt (N.to_nat 65536)). rewrite repeat_length. apply N2Nat.id. Qed.

(** Texts are numbers, passes add to circuits. *)
Definition h0 : heap nat nat nat := {| next := 5; circuits := [(2, 7)]; passes := []; strings := [(4, 1)] |}.
Definition all0 from_str := all_circuits nat nat nat nat (fun s => Some s) from_str (Nat.eqb 0)
  (fun t => Some t) (fun c => (true, Some c)) (fun t => Some t) (fun c p => (Nat.ltb c 50, c + p)).
Example passes_instance :
  all0 (fun t => Some t) 3 [10; 20] h0
  = Some ({| next := 11; circuits := [(2, 7)]; passes := []; strings := [(4, 1)] |}, Ok [13; 23])
  /\ option_map snd (all0 (fun t => Some t) 3 [10; 60; 20] h0) = Some (Err Tket1Error)
  /\ option_map (fun x => strings _ _ _ (fst x)) (all0 (fun t => None) 3 [10] h0)
     = Some [(7, 13); (4, 1)].
Proof. repeat split; reflexivity. Qed.
Example parallel_instance :
  par_circuits nat nat nat nat (fun s => Some s) (fun t => Some t) (Nat.eqb 0) (fun t => Some t)
    (fun c => (true, Some c)) (fun t => Some t) (fun c p => (Nat.ltb c 50, c + p)) 3 [2; 0; 1] [10; 20; 30] h0
  = Some ({| next := 14; circuits := [(2, 7)]; passes := []; strings := [(4, 1)] |}, [13; 23; 33], None)
  /\ NoDup [2; 0; 1].
Proof.
  split; [ reflexivity | ]. repeat constructor; simpl; intuition discriminate.
Qed.
Example readable_instance : readable nat nat nat (fun t => Some t) (fun c => (true, Some c)).
Proof. intros c ok t h. inversion h. split; [ reflexivity | discriminate ]. Qed.

Print Assumptions C103_greedy.
Print Assumptions C103_exhaustive_partial.
Print Assumptions C103_history.
Print Assumptions C103_off.
Print Assumptions C103_enable_again.
Print Assumptions C103_failed_refuted.
Print Assumptions C103_wrapped_refuted.
Print Assumptions C103_metadata_refuted.
Print Assumptions C104_memory.
Print Assumptions C104_strings_partial.
Print Assumptions C104_result.
Print Assumptions C104_parallel.
Print Assumptions C104_order.
Print Assumptions C104_leak_refuted.
