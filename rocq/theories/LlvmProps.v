(** Properties C71 to C78: LLVM code of operations, constant strings, exit codes, GPU calls. *)
From Coq Require Import List Arith Bool ZArith String Ascii Permutation Lia.
From Verif Require Import GlobModel GlobSpec GlobProofs LlvmModel LlvmSpec LlvmProofs LlvmSafe LlvmGlue LlvmMain.
From Verif Require Import GpuModel GpuSpec GpuProofs.
Import ListNotations.

(** ** C71: the code of a program does what the program means *)
(** For a typed program with any parameters, the compiler gives code.  In every module that has
    the constants of this one, the code ends in the same state of the machine as the program,
    with the same values on all wires, or panics when the program does. *)
Theorem C71_refines : forall hash take10 D (M : machine D) fadd p vs m,
  no_max M -> typed p (params (map ty_of vs)) ->
  exists is oenv n m',
    emit_prog hash take10 p (param_regs (List.length vs)) (List.length vs) m = EOk (is, oenv, n, m') /\
    keeps m m' /\
    forall m2 s d, keeps m' m2 -> (forall i v, nth_error vs i = Some v -> s i = rep v) ->
      match run D M fadd p (params vs) d with
      | Some (Go env' d') =>
          exists s', exec D (abi M) fadd m2 is s d = Some (Going s' d') /\
            forall w v, lookup env' w = Some v ->
              exists a, lookup oenv w = Some a /\ eval m2 s' a = Some (rep v)
      | Some (Panicked d') => exec D (abi M) fadd m2 is s d = Some (Ended d')
      | None => False
      end.
Proof. exact C71_refines_pf. Qed.

(** ** C72: handles of qubits and futures *)
(** The code of a linear program never uses a qubit that is not allocated, never gives the same
    qubit twice to one gate, never frees one twice, and never uses a future without a reference;
    at its end the qubits that are allocated and the references are exactly those of the linear
    wires that are left.  This holds unless the runtime gives the handle of a qubit that is in
    use to another. *)
Theorem C72_handles : forall hash take10 D (M : machine D) fadd p vs G' m,
  no_max M -> linear_prog p (params (map ty_of vs)) G' ->
  exists is oenv n m',
    emit_prog hash take10 p (param_regs (List.length vs)) (List.length vs) m = EOk (is, oenv, n, m') /\
    forall s d L,
      (forall i v, nth_error vs i = Some v -> s i = rep v) ->
      balanced (params vs) (live (params (map ty_of vs))) L ->
      match exec (D * ledger) (abi (watched M)) fadd m' is s (d, L) with
      | Some (Going s' (_, L')) =>
          l_odd L' = true \/
          exists env', balanced env' (live G') L' /\
            forall w v, lookup env' w = Some v ->
              exists a, lookup oenv w = Some a /\ eval m' s' a = Some (rep v)
      | Some (Ended (_, L')) => l_odd L' = true \/ l_bad L' = false
      | None => False
      end.
Proof. exact C72_handles_pf. Qed.

(** When no linear wire is left, nothing is left. *)
Theorem C72_nothing_left : forall hash take10 D (M : machine D) fadd p vs G' m is oenv n m' s d L s' d' L',
  no_max M -> linear_prog p (params (map ty_of vs)) G' -> live G' = [] ->
  emit_prog hash take10 p (param_regs (List.length vs)) (List.length vs) m = EOk (is, oenv, n, m') ->
  (forall i v, nth_error vs i = Some v -> s i = rep v) ->
  balanced (params vs) (live (params (map ty_of vs))) L ->
  exec (D * ledger) (abi (watched M)) fadd m' is s (d, L) = Some (Going s' (d', L')) ->
  l_odd L' = true \/ (l_bad L' = false /\ l_qubits L' = [] /\ l_refs L' = []).
Proof. exact C72_nothing_left_pf. Qed.

(** The bookkeeping does not change what code does. *)
Theorem C72_watched : forall D (M : machine D) fadd m is s d L,
  match exec D (abi M) fadd m is s d, exec (D * ledger) (abi (watched M)) fadd m is s (d, L) with
  | Some (Going s1 d1), Some (Going s2 (d2, _)) => s2 = s1 /\ d2 = d1
  | Some (Ended d1), Some (Ended (d2, _)) => d2 = d1
  | None, None => True
  | _, _ => False
  end.
Proof. exact C72_watched_pf. Qed.

(** ** C73: constant strings *)
(** In a sequence of requests: each variable that is given holds the length and the text,
    whatever was in the module is still there, the same request gives the same variable at any
    later time without changing the module, and variables are shared only by equal texts. *)
Theorem C73_strings : forall hash take10 m rs m' gs,
  emit_all hash take10 m rs = EOk (m', gs) ->
  keeps m m' /\
  Forall2 (fun r g => holds m' g (counted (text r)) /\ List.length (text r) < 256) rs gs /\
  (forall i j r r' g, nth_error rs i = Some r -> nth_error rs j = Some r' ->
     nth_error gs i = Some g -> nth_error gs j = Some g -> text r = text r') /\
  (forall i s y p g m2, nth_error rs i = Some (s, y, p) -> nth_error gs i = Some g ->
     keeps m' m2 -> emit_global_string hash take10 m2 s y p = EOk (m2, g)).
Proof. exact C73_strings_pf. Qed.

(** One request adds at most one variable, under a new name. *)
Theorem C73_adds_one : forall hash take10 m s y p m' g,
  emit_global_string hash take10 m s y p = EOk (m', g) ->
  m' = m \/ (get_global m g = None /\ m' = m ++ [(g, Some (counted (p ++ s)))]).
Proof. exact C73_adds_one_pf. Qed.

(** The search for a name always ends with one; the only error is a text that is too long. *)
Theorem C73_total : forall hash take10 m s y p,
  (List.length (p ++ s) < 256 -> exists m' g, emit_global_string hash take10 m s y p = EOk (m', g)) /\
  (256 <= List.length (p ++ s) -> emit_global_string hash take10 m s y p = EErr).
Proof. exact C73_total_pf. Qed.

(** ** C74: tags of results *)
(** Two tags of one module that are in the same variable are the same, and their kinds are the
    same up to the sign of the numbers; the function that prints tells these apart. *)
Theorem C74_tags : forall hash take10 m rs m' gs,
  tag_all hash take10 m rs = EOk (m', gs) ->
  Forall2 (fun r g => holds m' g (counted (tag_text (fst r) (snd r)))) rs gs /\
  forall i j k k' t t' g, nth_error rs i = Some (k, t) -> nth_error rs j = Some (k', t') ->
    nth_error gs i = Some g -> nth_error gs j = Some g ->
    t = t' /\ same_kind k k' /\
    (option_map print_symbol k = option_map print_symbol k' -> k = k').
Proof. exact C74_tags_pf. Qed.

(** A tag that is empty or too long makes the compiler panic for a result, but gives an error
    for a state. *)
Theorem C74_panic_refuted : ~ (forall hash take10 m k tag, result_tag hash take10 m k tag <> EPanic).
Proof. exact C74_panic_refuted_pf. Qed.
Theorem C74_bad_tags : forall hash take10 m k tag,
  (tag = [] \/ 256 <= List.length (tag_text (Some k) tag) <-> result_tag hash take10 m k tag = EPanic) /\
  (tag = [] \/ 256 <= List.length (tag_text None tag) <-> state_tag hash take10 m tag = EErr).
Proof. exact C74_bad_tags_pf. Qed.

(** ** C75: exit codes *)
(** Signals of panics from 1 to 2^31 - 1001 and signals of exits from 1 to 1000 keep apart, and
    no two signals are given the same code. *)
Theorem C75_codes : forall s e,
  (1 <= s <= 2147482647)%Z -> (1 <= e <= 1000)%Z ->
  (1001 <= panic_code s <= 2147483647)%Z /\ (1 <= exit_code e <= 1000)%Z /\
  (panic_code s - 1000 = s)%Z /\ exit_code e = e.
Proof. exact C75_codes_pf. Qed.
(** Without bounds on the signals the two overlap, and the code of a panic can be negative. *)
Theorem C75_ranges_refuted :
  ~ (forall s e, (0 <= s < 2 ^ 32)%Z -> (0 <= e < 2 ^ 32)%Z -> panic_code s <> exit_code e) /\
  ~ (forall s, (0 <= s < 2 ^ 32)%Z -> (0 < panic_code s)%Z).
Proof. exact C75_ranges_refuted_pf. Qed.

(** ** C76: arguments of GPU calls *)
(** The blob is filled completely, its size is the one given, and a library that reads it with
    the signature gets the arguments and the type of the output back. *)
Theorem C76_round_trip : forall big args outs t,
  Forall good_arg args -> out_letter outs t ->
  exists blob sig,
    pack_arguments big args = Some (map Some blob, List.length blob) /\
    generate_signature args outs = Some sig /\
    read_blob big sig blob = Some (args, t).
Proof. exact C76_round_trip_pf. Qed.
(** Two calls with the same bytes and the same signature have the same arguments and outputs. *)
Theorem C76_injective : forall big a b outs outs' t t' blob sig,
  Forall good_arg a -> Forall good_arg b -> out_letter outs t -> out_letter outs' t' ->
  pack_arguments big a = Some blob -> pack_arguments big b = Some blob ->
  generate_signature a outs = Some sig -> generate_signature b outs' = Some sig ->
  a = b /\ outs = outs'.
Proof. exact C76_injective_pf. Qed.
(** Other types are refused. *)
Theorem C76_refused : forall big args outs, In AOther args ->
  pack_arguments big args = None /\ generate_signature args outs = None.
Proof. exact C76_refused_pf. Qed.

(** ** C77: calls of the GPU library *)
(** In every run of a program that starts without contexts, whatever the library answers: the
    version is validated before any other call and successfully at most once, each name of a
    function is looked up successfully at most once and every lookup gives the same number, and
    after the first failure there is only the request of its message and the panic. *)
Theorem C77_calls : forall World (lib : ext -> World -> World * (bool * Z)) big p env w,
  no_context env ->
  match grun World lib big p env [] (fresh w) with
  | GVal (_, ans) s =>
      validated_first (calls s) /\ at_most_once (XValidate 0 1 0) (calls s) /\
      (forall n, at_most_once (XFunction n) (calls s)) /\
      (forall x b, In (x, b) (calls s) -> b = true) /\
      (forall n z z', In (n, z) ans -> In (n, z') ans -> z = z')
  | GPanic s =>
      validated_first (calls s) /\ at_most_once (XValidate 0 1 0) (calls s) /\
      (forall n, at_most_once (XFunction n) (calls s)) /\ stops (calls s)
  | GStuck => True
  end.
Proof. exact C77_calls_pf. Qed.

(** After the validation, an operation makes one call with the values of its wires, and gives
    the answer; a failure is followed by the message and the panic. *)
Theorem C77_requests : forall World (lib : ext -> World -> World * (bool * Z)) big o vs s,
  g_validated s = true -> asking o vs ->
  (forall n, o = GLookupName n -> cached (g_ids s) n = None) ->
  exists x out, asks big o vs x out /\
    forall w ok z, lib x (g_world s) = (w, (ok, z)) ->
      match run_gop World lib big o vs s with
      | GVal ws s' => ok = true /\ ws = out z /\ g_world s' = w /\ calls s' = calls s ++ [(x, true)]
      | GPanic s' => ok = false /\
          exists b b', calls s' = calls s ++ [(x, false); (XGetError, b); (XPanic 70002, b')]
      | GStuck => False
      end.
Proof. exact C77_requests_pf. Qed.

(** The functions that the compiler adds to the module are defined once, and whatever the code of
    the operations or of these functions calls is defined. *)
Theorem C77_functions : forall os,
  let m := fold_left (fun m o => def_op o m) os [] in
  NoDup m /\ (forall f g, In f m -> In g (needs f) -> In g m) /\
  (forall o f, In o os -> In f (op_needs o) -> In f m).
Proof. exact C77_functions_pf. Qed.

(** ** C78: contexts of random numbers, and rotations *)
(** "Return None on second call" (extension/random.rs:108) does not hold of the code: both of two
    calls in a row give a context. *)
Theorem C78_new_context_refuted : exists p,
  typed p (params [TInt]) /\
  forall D (M : machine D) fadd z d, exists d',
    run D M fadd p (params [WInt z]) d = Some (Go [(2, WOptC true); (1, WOptC true); (0, WInt z)] d').
Proof. exact C78_new_context_refuted_pf. Qed.

(** Without additions all rotations are finite. *)
Theorem C78_rotations_finite : forall D (M : machine D) fadd p vs d env' d',
  Forall (fun x => fst (fst x) <> TAdd) p ->
  Forall (fun v => match v with WRot f | WOptR (Some f) => finite f = true | _ => True end) vs ->
  run D M fadd p (params vs) d = Some (Go env' d') ->
  forall w f, lookup env' w = Some (WRot f) \/ lookup env' w = Some (WOptR (Some f)) -> finite f = true.
Proof. exact C78_rotations_finite_pf. Qed.
(** With an addition that overflows they are not: a rotation can be infinite. *)
Theorem C78_addition_refuted : exists p,
  typed p (params [TFloat; TFloat]) /\
  forall D (M : machine D) fadd a b neg d, fadd (FFin a) (FFin b) = FInf neg ->
    exists env' d', run D M fadd p (params [WFloat (FFin a); WFloat (FFin b)]) d = Some (Go env' d') /\
      lookup env' 4 = Some (WRot (FInf neg)).
Proof. exact C78_addition_refuted_pf. Qed.

(** ** Instances *)
(** A qubit is allocated, rotated, measured lazily; the future is copied, one copy is freed and
    the other read and printed. *)
Definition sample : prog :=
  [(QTryQAlloc, [], [1]); (UnwrapQ, [1], [2]); (QRz, [2; 0], [3]); (QLazyMeasure, [3], [4]);
   (FDup FtBool, [4], [5; 6]); (FFree FtBool, [5], []); (FRead FtBool, [6], [7]);
   (Res KBool (of_string "c"), [7], [])].
Example sample_linear : exists G, linear_prog sample (params [TFloat]) G /\ live G = [].
Proof.
  unfold sample. eexists. split; [|shelve].
  Ltac lin := cbn [linear_prog]; do 2 eexists; split; [reflexivity|]; split; [constructor|];
    split; [cbn; repeat constructor; simpl; intuition discriminate|]; split; [reflexivity|];
    split; [repeat constructor; simpl; intuition discriminate|];
    split; [simpl; intuition (subst; reflexivity)|].
  lin. split; [|exact I]. lin. split; [|exact I]. lin. split; [|exact I]. lin. split; [|exact I].
  lin. split; [|exact I]. lin. split; [|exact I]. lin. split; [|exact I].
  cbn [linear_prog]; do 2 eexists; split; [reflexivity|]; split; [constructor; reflexivity|].
  split; [cbn; constructor|]. split; [reflexivity|]. split; [constructor|]. split; [simpl; tauto|].
  split; [reflexivity|]. split; [discriminate | simpl; lia].
  Unshelve. reflexivity.
Qed.
(** A small machine: a counter for handles. *)
Definition counter : machine Z := {|
  m_rz := fun _ _ d => d; m_rzz := fun _ _ _ d => d; m_rxy := fun _ _ _ d => d;
  m_alloc := fun d => if Z.eqb d max_qb then (d, None) else ((d + 1)%Z, Some d);
  m_free := fun _ d => d; m_reset := fun _ d => d; m_measure := fun _ d => (d, true);
  m_lazy := fun _ d => ((d + 1)%Z, d); m_leaked := fun _ d => ((d + 1)%Z, d);
  m_inc := fun _ d => d; m_dec := fun _ d => d; m_read_bool := fun _ d => (d, true);
  m_read_uint := fun _ d => (d, 2%Z); m_rint := fun d => (d, 4%Z); m_rfloat := fun d => (d, FNan);
  m_rbounded := fun _ d => (d, 0%Z); m_advance := fun _ d => d; m_seed := fun _ d => d;
  m_shot := fun d => (d, 0%Z); m_print := fun _ _ _ d => (d + 100)%Z; m_panic := fun d => d |}.
Example counter_no_max : no_max counter.
Proof.
  intros d d' q H. simpl in H. destruct (Z.eqb_spec d max_qb) as [E|E]; [discriminate|]. congruence.
Qed.
(** The code of the sample, and its run with bookkeeping: nothing is left and nothing was wrong. *)
Example sample_runs :
  match emit_prog (fun x => x) (fun x => x) sample (param_regs 1) 1 [] with
  | EOk (is, _, _, m) =>
      match exec (Z * ledger) (abi (watched counter)) (fun a _ => a) m is (fun _ => VFlt (FFin 3))
              (5%Z, {| l_qubits := []; l_refs := []; l_bad := false; l_odd := false |}) with
      | Some (Going _ (d, L)) => d = 107%Z /\ L = {| l_qubits := []; l_refs := []; l_bad := false; l_odd := false |}
      | _ => False
      end
  | _ => False
  end.
Proof. vm_compute. auto. Qed.
Example sample_start : balanced (params [WFloat (FFin 3)]) (live (params (map ty_of [WFloat (FFin 3)])))
  {| l_qubits := []; l_refs := []; l_bad := false; l_odd := false |}.
Proof. split; [reflexivity|]. split; [constructor|]. split; constructor. Qed.
(** A hash which is the same for all strings: the second text gets the next number. *)
Example strings_collide :
  match emit_all (fun _ => []) (fun _ => []) [] [([1%Z], [], []); ([2%Z], [], []); ([1%Z], [], [])] with
  | EOk (m, [a; b; c]) => a = c /\ a <> b /\ List.length m = 2
  | _ => False
  end.
Proof. vm_compute. repeat split. discriminate. Qed.
Example tags_shared :
  match tag_all (fun x => x) (fun x => x) [] [(Some KInt, [99%Z]); (Some KUInt, [99%Z]); (Some KBool, [99%Z]); (None, [99%Z])] with
  | EOk (m, [a; b; c; d]) => a = b /\ a <> c /\ a <> d
  | _ => False
  end.
Proof. vm_compute. repeat split; discriminate. Qed.
Example blob_sample :
  pack_arguments false [ABool true; AInt 258] = Some (map Some [1; 2; 1; 0; 0; 0; 0; 0; 0]%Z, 9) /\
  generate_signature [ABool true; AInt 258] [OFloat] = Some "bi:f"%string.
Proof. split; reflexivity. Qed.
(** A library that answers every call with success and the number 7. *)
Example gpu_sample :
  match grun unit (fun _ w => (w, (true, 7%Z))) false
    [(Do (GLookupName [1%Z]), [], [1]); (Do GGetContext, [0], [2]); (Unwrap, [2], [3]);
     (Do (GCall [OInt]), [3; 1; 0], [4]); (Do (GRead [OInt]), [4], [5; 6]);
     (Do (GLookupName [1%Z]), [], [7]); (Do GDispose, [5], [])]
    [(0, GArg (AInt 2))] [] (fresh tt) with
  | GVal (_, ans) s =>
      map fst (calls s) = [XValidate 0 1 0; XFunction [1%Z]; XInit 2;
        XCall 7 7 8 (map Some [2; 0; 0; 0; 0; 0; 0; 0]%Z) "i:i"; XResult 7 8; XDiscard 7] /\
      ans = [([1%Z], 7%Z); ([1%Z], 7%Z)]
  | _ => False
  end.
Proof. vm_compute. auto. Qed.
Example gpu_no_context : no_context [(0, GArg (AInt 2))].
Proof. intros w v. simpl. destruct w; [|discriminate]. intros H. injection H as <-. exact I. Qed.
Example gpu_asking : asking (GCall [OInt]) [GCtx 7; GFn 7; GArg (AInt 2); GArg (ABool true)].
Proof.
  exists [AInt 2; ABool true], "i"%string. split; [reflexivity|]. split.
  - constructor; [split; reflexivity || (intro; discriminate)|]. constructor; [exact I | constructor].
  - right. left. auto.
Qed.
(** A library that fails to validate. *)
Example gpu_fails :
  match grun unit (fun _ w => (w, (false, 0%Z))) false [(Do GGetContext, [0], [2])]
    [(0, GArg (AInt 2))] [] (fresh tt) with
  | GPanic s => map fst (calls s) = [XValidate 0 1 0; XGetError; XPanic 70002]
  | _ => False
  end.
Proof. vm_compute. auto. Qed.
Example functions_sample :
  fold_left (fun m o => def_op o m) [GGetContext; GLookupName [1%Z]; GDispose; GLookupName [1%Z]] []
  = [FValidation; FResponse; FError; FLookup [1%Z]].
Proof. reflexivity. Qed.

Print Assumptions C71_refines.
Print Assumptions C72_handles.
Print Assumptions C72_nothing_left.
Print Assumptions C72_watched.
Print Assumptions C73_strings.
Print Assumptions C73_adds_one.
Print Assumptions C73_total.
Print Assumptions C74_tags.
Print Assumptions C74_panic_refuted.
Print Assumptions C74_bad_tags.
Print Assumptions C75_codes.
Print Assumptions C75_ranges_refuted.
Print Assumptions C76_round_trip.
Print Assumptions C76_injective.
Print Assumptions C76_refused.
Print Assumptions C77_calls.
Print Assumptions C77_requests.
Print Assumptions C77_functions.
Print Assumptions C78_new_context_refuted.
Print Assumptions C78_rotations_finite.
Print Assumptions C78_addition_refuted.
