(** Proofs of the properties C71 to C78: LLVM code of operations, constant strings, exit codes, GPU calls. *)
From Coq Require Import List Arith Bool ZArith String Ascii Permutation Lia.
From Verif Require Import GlobModel GlobSpec GlobProofs LlvmModel LlvmSpec LlvmProofs LlvmSafe LlvmGlue.
From Verif Require Import GpuModel GpuSpec GpuProofs.
Import ListNotations.

Lemma C71_refines_pf : forall hash take10 D (M : machine D) fadd p vs m,
  no_max M -> typed p (params (map ty_of vs)) ->
  exists is oenv n m',
    emit_prog hash take10 p (param_regs (List.length vs)) (List.length vs) m = EOk (is, oenv, n, m') /\
    keeps m m' /\
    forall m2 s d, keeps m' m2 -> (forall i v, nth_error vs i = Some v -> s i = rep v) ->
      match run D M fadd p (params vs) d with
      | Some (Go env' d') =>
          exists s', exec D (abi M) fadd m2 is s d = Some (Going s' d') /\
            forall w v, lookup env' w = Some v ->
              exists a, lookup oenv w = Some a /\ eval m2 s' a = Some (rep v)
      | Some (Panicked d') => exec D (abi M) fadd m2 is s d = Some (Ended d')
      | None => False
      end.
Proof.
  intros hash take10 D M fadd p vs m NM T.
  pose proof (params_covers (map ty_of vs)) as C. rewrite map_length in C.
  destruct (prog_ok hash take10 D M fadd NM p _ _ (List.length vs) m T C) as (is & oenv & n & m' & E & K & S).
  exists is, oenv, n, m'. split; [exact E|]. split; [exact K|]. intros m2 s d K2 R.
  exact (S m2 (params vs) s d K2 (params_types vs) (params_reps m2 s vs R)).
Qed.

Lemma C72_handles_pf : forall hash take10 D (M : machine D) fadd p vs G' m,
  no_max M -> linear_prog p (params (map ty_of vs)) G' ->
  exists is oenv n m',
    emit_prog hash take10 p (param_regs (List.length vs)) (List.length vs) m = EOk (is, oenv, n, m') /\
    forall s d L,
      (forall i v, nth_error vs i = Some v -> s i = rep v) ->
      balanced (params vs) (live (params (map ty_of vs))) L ->
      match exec (D * ledger) (abi (watched M)) fadd m' is s (d, L) with
      | Some (Going s' (_, L')) =>
          l_odd L' = true \/
          exists env', balanced env' (live G') L' /\
            forall w v, lookup env' w = Some v ->
              exists a, lookup oenv w = Some a /\ eval m' s' a = Some (rep v)
      | Some (Ended (_, L')) => l_odd L' = true \/ l_bad L' = false
      | None => False
      end.
Proof.
  intros hash take10 D M fadd p vs G' m NM LP.
  assert (T : typed p (params (map ty_of vs)))
    by (eapply linear_typed; [exact LP | apply params_nodup | auto]).
  destruct (C71_refines_pf hash take10 (D * ledger) (watched M) fadd p vs m (no_max_watched _ _ NM) T)
    as (is & oenv & n & m' & E & _ & S).
  exists is, oenv, n, m'. split; [exact E|]. intros s d L R B.
  specialize (S m' s (d, L) (keeps_refl m') R).
  pose proof (run_balanced D M fadd p (params (map ty_of vs)) G' (params vs) d L) as RB.
  destruct (run (D * ledger) (watched M) fadd p (params vs) (d, L)) as [r|]; [|contradiction].
  specialize (RB r LP (params_nodup _ _) (params_agree vs) B eq_refl).
  destruct r as [env' [d' L']|[d' L']].
  - destruct S as (s' & -> & V). destruct RB as [O|BB]; [left; exact O | right].
    exists env'. auto.
  - rewrite S. exact RB.
Qed.

Lemma C72_nothing_left_pf : forall hash take10 D (M : machine D) fadd p vs G' m is oenv n m' s d L s' d' L',
  no_max M -> linear_prog p (params (map ty_of vs)) G' -> live G' = [] ->
  emit_prog hash take10 p (param_regs (List.length vs)) (List.length vs) m = EOk (is, oenv, n, m') ->
  (forall i v, nth_error vs i = Some v -> s i = rep v) ->
  balanced (params vs) (live (params (map ty_of vs))) L ->
  exec (D * ledger) (abi (watched M)) fadd m' is s (d, L) = Some (Going s' (d', L')) ->
  l_odd L' = true \/ (l_bad L' = false /\ l_qubits L' = [] /\ l_refs L' = []).
Proof.
  intros hash take10 D M fadd p vs G' m is oenv n m' s d L s' d' L' NM LP LG E R B X.
  destruct (C72_handles_pf hash take10 D M fadd p vs G' m NM LP) as (is2 & oenv2 & n2 & m2 & E2 & S).
  rewrite E in E2. injection E2 as <- <- <- <-. specialize (S s d L R B). rewrite X in S.
  destruct S as [O|(env' & (B1 & _ & B3 & B4) & _)]; [left; exact O | right].
  rewrite LG in *. unfold held in *. simpl in *.
  split; [exact B1|]. split; apply Permutation_nil; now symmetry.
Qed.

Lemma C72_watched_pf : forall D (M : machine D) fadd m is s d L,
  match exec D (abi M) fadd m is s d, exec (D * ledger) (abi (watched M)) fadd m is s (d, L) with
  | Some (Going s1 d1), Some (Going s2 (d2, _)) => s2 = s1 /\ d2 = d1
  | Some (Ended d1), Some (Ended (d2, _)) => d2 = d1
  | None, None => True
  | _, _ => False
  end.
Proof.
  intros D M fadd m is s d L. pose proof (exec_watched D M fadd m is s d L) as H. unfold same_outcome in H.
  destruct (exec D (abi M) fadd m is s d) as [[s1 d1|d1]|],
    (exec (D * ledger) (abi (watched M)) fadd m is s (d, L)) as [[s2 [d2 L2]|[d2 L2]]|]; simpl in H; auto.
Qed.

Lemma C73_strings_pf : forall hash take10 m rs m' gs,
  emit_all hash take10 m rs = EOk (m', gs) ->
  keeps m m' /\
  Forall2 (fun r g => holds m' g (counted (text r)) /\ List.length (text r) < 256) rs gs /\
  (forall i j r r' g, nth_error rs i = Some r -> nth_error rs j = Some r' ->
     nth_error gs i = Some g -> nth_error gs j = Some g -> text r = text r') /\
  (forall i s y p g m2, nth_error rs i = Some (s, y, p) -> nth_error gs i = Some g ->
     keeps m' m2 -> emit_global_string hash take10 m2 s y p = EOk (m2, g)).
Proof.
  intros hash take10 m rs m' gs H. pose proof (emit_all_holds _ _ _ _ _ _ H) as F.
  split; [eapply emit_all_keeps; eauto|]. split; [exact F|]. split.
  - assert (N : forall i r g, nth_error rs i = Some r -> nth_error gs i = Some g -> holds m' g (counted (text r))).
    { clear -F. induction F as [|r g rs gs [P _] F IH]; intros [|i] r0 g0; simpl; try discriminate; eauto.
      intros A B. injection A as <-. injection B as <-. exact P. }
    intros i j r r' g A B C E. pose proof (N _ _ _ A C) as H1. pose proof (N _ _ _ B E) as H2.
    unfold holds in *. rewrite H1 in H2. unfold counted in H2. injection H2 as _ H2. exact H2.
  - intros i s y p g m2 A B K. eapply emit_all_again; eauto.
Qed.

Lemma C73_adds_one_pf : forall hash take10 m s y p m' g,
  emit_global_string hash take10 m s y p = EOk (m', g) ->
  m' = m \/ (get_global m g = None /\ m' = m ++ [(g, Some (counted (p ++ s)))]).
Proof.
 intros hash take10 m s y p m' g H. exact (proj1 (proj2 (proj2 (emit_ok _ _ _ _ _ _ _ _ H)))). Qed.

Lemma C73_total_pf : forall hash take10 m s y p,
  (List.length (p ++ s) < 256 -> exists m' g, emit_global_string hash take10 m s y p = EOk (m', g)) /\
  (256 <= List.length (p ++ s) -> emit_global_string hash take10 m s y p = EErr).
Proof.
  intros hash take10 m s y p. pose proof (emit_total hash take10 m s y p) as T. split; intros L.
  - apply Nat.ltb_lt in L. rewrite L in T. destruct T as [[m' g] T]. eauto.
  - apply Nat.ltb_ge in L. rewrite L in T. exact T.
Qed.

Lemma C74_tags_pf : forall hash take10 m rs m' gs,
  tag_all hash take10 m rs = EOk (m', gs) ->
  Forall2 (fun r g => holds m' g (counted (tag_text (fst r) (snd r)))) rs gs /\
  forall i j k k' t t' g, nth_error rs i = Some (k, t) -> nth_error rs j = Some (k', t') ->
    nth_error gs i = Some g -> nth_error gs j = Some g ->
    t = t' /\ same_kind k k' /\
    (option_map print_symbol k = option_map print_symbol k' -> k = k').
Proof.
  intros hash take10 m rs m' gs H. pose proof (tag_all_holds _ _ _ _ _ _ H) as F. split.
  - clear -F. induction F as [|r g rs gs (_ & P & _) F IH]; constructor; auto.
  - assert (N : forall i r g, nth_error rs i = Some r -> nth_error gs i = Some g ->
              holds m' g (counted (tag_text (fst r) (snd r)))).
    { clear -F. induction F as [|r g rs gs (_ & P & _) F IH]; intros [|i] r0 g0; simpl; try discriminate; eauto.
      intros A B. injection A as <-. injection B as <-. exact P. }
    intros i j k k' t t' g A B C E. pose proof (N _ _ _ A C) as H1. pose proof (N _ _ _ B E) as H2.
    unfold holds in *. rewrite H1 in H2. unfold counted in H2. injection H2 as _ H2.
    apply (tag_text_inj hash take10) in H2 as [-> K]. split; [reflexivity|]. split; [exact K|].
    destruct k as [[]|], k' as [[]|]; simpl; intros Q; auto; try discriminate Q.
Qed.

Lemma C74_panic_refuted_pf : ~ (forall hash take10 m k tag, result_tag hash take10 m k tag <> EPanic).
Proof.
 intros H. exact (H (fun x => x) (fun x => x) [] KBool [] eq_refl). Qed.

Lemma C74_bad_tags_pf : forall hash take10 m k tag,
  (tag = [] \/ 256 <= List.length (tag_text (Some k) tag) <-> result_tag hash take10 m k tag = EPanic) /\
  (tag = [] \/ 256 <= List.length (tag_text None tag) <-> state_tag hash take10 m tag = EErr).
Proof.
  intros hash take10 m k tag. destruct tag as [|b tag].
  - split; split; auto; intros _; reflexivity.
  - split.
    + unfold result_tag, generate_global_tag.
      pose proof (emit_total hash take10 m (b :: tag) (of_string "res_") (tag_prefix k)) as T.
      rewrite tag_prefix_text in *. unfold tag_text.
      destruct (Nat.ltb_spec (List.length (of_string (kind_text k) ++ b :: tag)) 256) as [L|L].
      * destruct T as [r ->]. simpl. split; [intros [A|A]; [discriminate | simpl in *; lia] | discriminate].
      * rewrite T. simpl. split; auto.
    + unfold state_tag.
      pose proof (emit_total hash take10 m (b :: tag) (of_string "res_") (of_string "USER:STATE:")) as T.
      unfold tag_text.
      destruct (Nat.ltb_spec (List.length (of_string "USER:STATE:" ++ b :: tag)) 256) as [L|L].
      * destruct T as [r ->]. split; [intros [A|A]; [discriminate | simpl in *; lia] | discriminate].
      * rewrite T. split; auto.
Qed.

Lemma C75_codes_pf : forall s e,
  (1 <= s <= 2147482647)%Z -> (1 <= e <= 1000)%Z ->
  (1001 <= panic_code s <= 2147483647)%Z /\ (1 <= exit_code e <= 1000)%Z /\
  (panic_code s - 1000 = s)%Z /\ exit_code e = e.
Proof.
  intros s e S E. unfold panic_code, exit_code, i32.
  rewrite !Z.mod_small by lia. lia.
Qed.

Lemma C75_ranges_refuted_pf :
  ~ (forall s e, (0 <= s < 2 ^ 32)%Z -> (0 <= e < 2 ^ 32)%Z -> panic_code s <> exit_code e) /\
  ~ (forall s, (0 <= s < 2 ^ 32)%Z -> (0 < panic_code s)%Z).
Proof.
  split; intros H.
  - apply (H 1%Z 1001%Z); [lia | lia | reflexivity].
  - specialize (H 2147482648%Z ltac:(lia)). vm_compute in H. discriminate H.
Qed.

Lemma C76_round_trip_pf : forall big args outs t,
  Forall good_arg args -> out_letter outs t ->
  exists blob sig,
    pack_arguments big args = Some (map Some blob, List.length blob) /\
    generate_signature args outs = Some sig /\
    read_blob big sig blob = Some (args, t).
Proof.
  intros big args outs t F T.
  destruct (signature_ok args outs F (ex_intro _ t T)) as (s & t' & A & T' & S).
  assert (t' = t) as ->.
  { destruct T as [[-> ->]|[[-> ->]|[-> ->]]], T' as [[E ->]|[[E ->]|[E ->]]]; auto; discriminate E. }
  exists (blob_of big args), (append s (append ":" t)).
  split; [now apply pack_ok|]. split; [exact S|]. now apply read_blob_ok.
Qed.

Lemma C76_injective_pf : forall big a b outs outs' t t' blob sig,
  Forall good_arg a -> Forall good_arg b -> out_letter outs t -> out_letter outs' t' ->
  pack_arguments big a = Some blob -> pack_arguments big b = Some blob ->
  generate_signature a outs = Some sig -> generate_signature b outs' = Some sig ->
  a = b /\ outs = outs'.
Proof.
  intros big a b outs outs' t t' blob sig FA FB TA TB PA PB SA SB.
  destruct (C76_round_trip_pf big a outs t FA TA) as (x & s & X1 & X2 & X3).
  destruct (C76_round_trip_pf big b outs' t' FB TB) as (y & u & Y1 & Y2 & Y3).
  rewrite SA in X2. injection X2 as <-. rewrite SB in Y2. injection Y2 as <-.
  rewrite PA in X1. rewrite PB in Y1. rewrite X1 in Y1. injection Y1 as Q _.
  assert (x = y) as <-.
  { clear -Q. revert y Q. induction x; intros [|] Q; try discriminate; auto. injection Q as -> Q. f_equal; auto. }
  rewrite X3 in Y3. injection Y3 as -> ->. split; auto.
  destruct TA as [[-> ->]|[[-> ->]|[-> ->]]], TB as [[-> E]|[[-> E]|[-> E]]]; auto; discriminate E.
Qed.

Lemma C76_refused_pf : forall big args outs, In AOther args ->
  pack_arguments big args = None /\ generate_signature args outs = None.
Proof.
  intros big args outs I.
  assert (S : forall n, size_of_args args n = None).
  { induction args as [|a args IH]; [contradiction|]. intros n. destruct I as [->|I]; [reflexivity|].
    destruct a; simpl; auto. }
  assert (T : arg_types args = None).
  { clear S. induction args as [|a args IH]; [contradiction|]. destruct I as [->|I]; [reflexivity|].
    simpl. rewrite (IH I). now destruct a. }
  unfold pack_arguments, generate_signature. now rewrite S, T.
Qed.

Lemma C77_calls_pf : forall World (lib : ext -> World -> World * (bool * Z)) big p env w,
  no_context env ->
  match grun World lib big p env [] (fresh w) with
  | GVal (_, ans) s =>
      validated_first (calls s) /\ at_most_once (XValidate 0 1 0) (calls s) /\
      (forall n, at_most_once (XFunction n) (calls s)) /\
      (forall x b, In (x, b) (calls s) -> b = true) /\
      (forall n z z', In (n, z) ans -> In (n, z') ans -> z = z')
  | GPanic s =>
      validated_first (calls s) /\ at_most_once (XValidate 0 1 0) (calls s) /\
      (forall n, at_most_once (XFunction n) (calls s)) /\ stops (calls s)
  | GStuck => True
  end.
Proof.
  intros World lib big p env w N.
  assert (I : inv World (fresh w)) by constructor.
  assert (E : env_ok World (fresh w) env).
  { intros x v L. apply N in L. destruct v; simpl; auto; contradiction. }
  pose proof (grun_ok World lib big p env [] (fresh w) I E ltac:(intros n z [])) as G.
  destruct (grun World lib big p env [] (fresh w)) as [[env' ans] s|s|]; auto.
  - destruct G as [G A]. destruct (ended_facts _ (ended_going _ _ _ G)) as (F1 & _ & F3 & F4).
    split; [exact F1|]. split; [exact F3|]. split; [exact F4|]. split.
    + intros x b B. unfold calls in B. apply in_rev in B. eapply tr_all_true; eauto.
    + intros n z z' Z1 Z2. apply A in Z1. apply A in Z2. congruence.
  - destruct (ended_facts _ G) as (F1 & F2 & F3 & F4). auto.
Qed.

Lemma C77_requests_pf : forall World (lib : ext -> World -> World * (bool * Z)) big o vs s,
  g_validated s = true -> asking o vs ->
  (forall n, o = GLookupName n -> cached (g_ids s) n = None) ->
  exists x out, asks big o vs x out /\
    forall w ok z, lib x (g_world s) = (w, (ok, z)) ->
      match run_gop World lib big o vs s with
      | GVal ws s' => ok = true /\ ws = out z /\ g_world s' = w /\ calls s' = calls s ++ [(x, true)]
      | GPanic s' => ok = false /\
          exists b b', calls s' = calls s ++ [(x, false); (XGetError, b); (XPanic 70002, b')]
      | GStuck => False
      end.
Proof.
  intros World lib big o vs s V A C.
  assert (K : forall x (k : Z -> gstate World -> gres World (list gval)) out,
    (forall z s, exists s', k z s = GVal (out z) s' /\ g_world s' = g_world s /\ g_trace s' = g_trace s) ->
    forall w ok z, lib x (g_world s) = (w, (ok, z)) ->
      match then_ World (checked World lib x s) k with
      | GVal ws s' => ok = true /\ ws = out z /\ g_world s' = w /\ calls s' = calls s ++ [(x, true)]
      | GPanic s' => ok = false /\
          exists b b', calls s' = calls s ++ [(x, false); (XGetError, b); (XPanic 70002, b')]
      | GStuck => False
      end).
  { intros x k out HK w ok z L. unfold checked, call_ext. rewrite L. cbn.
    destruct ok; cbn.
    - match goal with |- context [k z ?s1] => destruct (HK z s1) as (s' & -> & W & T) end.
      cbn in W, T. unfold calls. rewrite T. cbn. auto.
    - unfold run_error, call_ext. cbn.
      destruct (lib XGetError w) as [w1 [b1 z1]]. cbn.
      destruct (lib (XPanic 70002) w1) as [w2 [b2 z2]]. cbn.
      split; [reflexivity|]. exists b1, b2. unfold calls. cbn. rewrite <- !app_assoc. reflexivity. }
  assert (RV : forall X (k : unit -> gstate World -> gres World X),
    then_ World (run_validation World lib s) k = k tt s)
    by (intros X k; unfold run_validation; rewrite V; reflexivity).
  assert (KG : forall (out : Z -> list gval) z (s0 : gstate World), exists s', GVal (World := World) (out z : list gval) s0 = GVal (out z) s' /\
    g_world s' = g_world s0 /\ g_trace s' = g_trace s0) by (intros; eauto).
  destruct o as [| |id|n|outs|outs]; cbn in A.
  - destruct vs as [|[| |[]|] []]; try contradiction. eexists _, _. split; [constructor|].
    intros w ok z' L. cbn [run_gop]. rewrite RV.
    refine (K _ _ (fun z => [GOpt (Some z)]) (fun z0 s0 => KG (fun z => [GOpt (Some z)]) z0 s0) _ _ _ L).
  - destruct vs as [|[] []]; try contradiction. eexists _, _. split; [constructor|].
    intros w ok z' L. cbn [run_gop].
    refine (K _ _ (fun z => []) (fun z0 s0 => KG (fun z => []) z0 s0) _ _ _ L).
  - contradiction.
  - destruct vs; try contradiction. eexists _, _. split; [constructor|].
    intros w ok z' L. cbn [run_gop]. unfold run_lookup. rewrite (C n eq_refl), RV.
    set (k := fun (z : Z) (s : gstate World) => GVal (World := World) [GFn z]
                {| g_validated := g_validated s; g_ids := (n, z) :: g_ids s;
                   g_world := g_world s; g_trace := g_trace s |}).
    assert (HK : forall z s, exists s', k z s = GVal [GFn z] s' /\ g_world s' = g_world s /\ g_trace s' = g_trace s)
      by (intros z s0; eexists; split; [reflexivity | split; reflexivity]).
    pose proof (K (XFunction n) k (fun z => [GFn z]) HK w ok z' L) as Q. revert Q. clear.
    destruct (checked World lib (XFunction n) s); intros Q; exact Q.
  - destruct vs as [|[r| | |] [|[|f| |] args]]; try contradiction.
    destruct A as (l & t & -> & F & O).
    destruct (C76_round_trip_pf big l outs t F O) as (blob & sig & P & G & R).
    eexists _, _. split; [exact (asks_call big r f l outs t blob sig R O)|].
    intros w ok z L. cbn [run_gop].
    assert (GA : get_args (map GArg l) = Some l)
      by (clear; induction l as [|a l IH]; simpl; [reflexivity | rewrite IH; reflexivity]).
    rewrite GA, G, P.
    refine (K _ _ (fun z => [GCtx r]) (fun z0 s0 => KG (fun z => [GCtx r]) z0 s0) _ _ _ L).
  - destruct vs as [|[r| | |] []]; try (destruct outs; contradiction).
    destruct A as [-> | ->]; eexists _, _; (split; [constructor|]); intros w ok z L; cbn [run_gop].
    + refine (K _ _ (fun z => [GCtx r; GArg (AInt z)]) (fun z0 s0 => KG (fun z => [GCtx r; GArg (AInt z)]) z0 s0) _ _ _ L).
    + refine (K _ _ (fun z => [GCtx r; GArg (AFloat z)]) (fun z0 s0 => KG (fun z => [GCtx r; GArg (AFloat z)]) z0 s0) _ _ _ L).
Qed.

Lemma C77_functions_pf : forall os,
  let m := fold_left (fun m o => def_op o m) os [] in
  NoDup m /\ (forall f g, In f m -> In g (needs f) -> In g m) /\
  (forall o f, In o os -> In f (op_needs o) -> In f m).
Proof.
  intros os m. destruct (def_ops_ok os [] (NoDup_nil _) ltac:(intros f g [])) as (A & B & _ & C).
  split; [exact A|]. split; [exact B|]. intros o f O F. exact (C o O f F).
Qed.

Lemma C78_new_context_refuted_pf : exists p,
  typed p (params [TInt]) /\
  forall D (M : machine D) fadd z d, exists d',
    run D M fadd p (params [WInt z]) d = Some (Go [(2, WOptC true); (1, WOptC true); (0, WInt z)] d').
Proof.
  exists [(RNew, [0], [1]); (RNew, [0], [2])]. split.
  - simpl. exists [TInt], [TOptC]. eexists. split; [reflexivity|]. split; [constructor|].
    split; [reflexivity|]. split; [|exact I]. exists [TInt], [TOptC]. eexists.
    split; [reflexivity|]. split; [constructor|]. split; [reflexivity|]. split; exact I.
  - intros D M fadd z d. eexists. reflexivity.
Qed.

Lemma C78_rotations_finite_pf : forall D (M : machine D) fadd p vs d env' d',
  Forall (fun x => fst (fst x) <> TAdd) p ->
  Forall (fun v => match v with WRot f | WOptR (Some f) => finite f = true | _ => True end) vs ->
  run D M fadd p (params vs) d = Some (Go env' d') ->
  forall w f, lookup env' w = Some (WRot f) \/ lookup env' w = Some (WOptR (Some f)) -> finite f = true.
Proof.
  intros D M fadd p vs d env' d' NA F R.
  assert (G : forall p env d, Forall (fun x => fst (fst x) <> TAdd) p ->
    (forall w v, lookup env w = Some v -> rot_ok v) -> run D M fadd p env d = Some (Go env' d') ->
    forall w v, lookup env' w = Some v -> rot_ok v).
  { clear. induction p as [|[[o ins] outs] p IH]; simpl; intros env d NA E R.
    - injection R as <- <-. exact E.
    - inversion NA as [|x l NO NP]; subst. simpl in NO.
      destruct (lookups env ins) as [vs|] eqn:L; try discriminate.
      destruct (mean D M fadd o vs d) as [[ws d1|d1]|] eqn:MN; try discriminate.
      destruct (bind outs ws env) as [env1|] eqn:B; try discriminate.
      apply bind_some in B as [BL ->]. refine (IH _ _ NP _ R).
      assert (FV : Forall rot_ok vs).
      { clear -E L. revert vs L. induction ins as [|w ins IH]; simpl; intros vs L; [injection L as <-; constructor|].
        destruct (lookup env w) eqn:Q; try discriminate. destruct (lookups env ins); try discriminate.
        injection L as <-. constructor; eauto. }
      pose proof (mean_rot D M fadd o vs d ws d1 NO FV MN) as FW.
      intros w v Q. rewrite lookup_app in Q. destruct (lookup (combine outs ws) w) as [x|] eqn:Q2; [|eauto].
      injection Q as ->. apply lookup_combine_in in Q2. rewrite Forall_forall in FW. auto. }
  intros w f [Q|Q]; refine (G p (params vs) d NA _ R w _ Q); intros w' v' L; rewrite lookup_params in L;
    apply nth_error_In in L; rewrite Forall_forall in F; exact (F _ L).
Qed.

Lemma C78_addition_refuted_pf : exists p,
  typed p (params [TFloat; TFloat]) /\
  forall D (M : machine D) fadd a b neg d, fadd (FFin a) (FFin b) = FInf neg ->
    exists env' d', run D M fadd p (params [WFloat (FFin a); WFloat (FFin b)]) d = Some (Go env' d') /\
      lookup env' 4 = Some (WRot (FInf neg)).
Proof.
  exists [(TFromUnchecked, [0], [2]); (TFromUnchecked, [1], [3]); (TAdd, [2; 3], [4])]. split.
  - simpl. exists [TFloat], [TRot]. eexists. split; [reflexivity|]. split; [constructor|].
    split; [reflexivity|]. split; [|exact I]. exists [TFloat], [TRot]. eexists.
    split; [reflexivity|]. split; [constructor|]. split; [reflexivity|]. split; [|exact I].
    exists [TRot; TRot], [TRot]. eexists. split; [reflexivity|]. split; [constructor|].
    split; [reflexivity|]. split; exact I.
  - intros D M fadd a b neg d H. do 2 eexists. split; [reflexivity|]. simpl. now rewrite H.
Qed.

