(** Lemmas about the GPU calls. *)
From Coq Require Import List Arith Bool ZArith String Ascii Lia.
From Verif Require Import GlobModel GlobProofs LlvmModel GpuModel GpuSpec.
Import ListNotations.

(** ** Arguments *)
Definition enc (big : bool) (a : arg) : list Z :=
  match a with
  | ABool b => [if b then 1%Z else 0%Z] | AInt z => bytes8 big z | AFloat z => bytes8 big z | AOther => []
  end.
Definition blob_of (big : bool) (l : list arg) : list Z := flat_map (enc big) l.

Lemma low_bytes_length : forall n z, List.length (low_bytes n z) = n.
Proof. induction n; simpl; auto. Qed.
Lemma bytes8_length : forall big z, List.length (bytes8 big z) = 8.
Proof. intros [] z; unfold bytes8; rewrite ?rev_length; apply low_bytes_length. Qed.
Lemma number_low : forall n z, (0 <= z < 256 ^ Z.of_nat n)%Z -> number (low_bytes n z) = z.
Proof.
  induction n as [|n IH]; intros z H.
  - simpl in *. lia.
  - cbn [low_bytes number]. rewrite IH.
    + pose proof (Z.div_mod z 256). lia.
    + rewrite Nat2Z.inj_succ, Z.pow_succ_r in H by lia. split.
      * apply Z.div_pos; lia.
      * apply Z.div_lt_upper_bound; lia.
Qed.
Lemma read8_bytes8 : forall big z, fits64 z -> read8 big (bytes8 big z) = z.
Proof.
  intros big z H. unfold read8, bytes8.
  assert (E : number (low_bytes 8 z) = z) by (apply number_low; exact H).
  destruct big; [rewrite rev_involutive|]; exact E.
Qed.

Lemma size_of_args_add : forall l n r, size_of_args l n = Some r -> forall big,
  r = n + List.length (blob_of big l).
Proof.
  induction l as [|[] l IH]; cbn [size_of_args]; intros n r H big; try discriminate.
  - injection H as <-. simpl. lia.
  - apply IH with (big := big) in H. unfold blob_of in *. simpl. lia.
  - apply IH with (big := big) in H. unfold blob_of in *. cbn [flat_map enc].
    rewrite app_length, bytes8_length. lia.
  - apply IH with (big := big) in H. unfold blob_of in *. cbn [flat_map enc].
    rewrite app_length, bytes8_length. lia.
Qed.

Lemma write_at_app : forall bs pre k,
  write_at (pre ++ repeat None (List.length bs + k)) (List.length pre) bs
  = Some (pre ++ map Some bs ++ repeat None k).
Proof.
  intros bs pre k. induction pre as [|x pre IH]; simpl.
  - induction bs as [|b bs IH]; simpl; auto. now destruct k.
    rewrite IH. reflexivity.
  - rewrite IH. reflexivity.
Qed.

Lemma write_args_ok : forall big l pre r, size_of_args l 0 = Some r ->
  write_args big l (List.length pre) (map Some pre ++ repeat None r)
  = Some (map Some (pre ++ blob_of big l)).
Proof.
  intros big. induction l as [|a l IH]; intros pre r H.
  - simpl in H. injection H as <-. simpl. now rewrite !app_nil_r.
  - assert (STEP : forall bs, enc big a = bs -> forall r', size_of_args l 0 = Some r' ->
      r = List.length bs + r' ->
      match write_at (map Some pre ++ repeat None r) (List.length pre) bs with
      | Some m => write_args big l (List.length pre + List.length bs) m
      | None => None
      end = Some (map Some (pre ++ blob_of big (a :: l)))).
    { intros bs E r' R ->. rewrite <- (map_length Some pre) at 1. rewrite write_at_app.
      rewrite app_assoc, <- map_app.
      replace (List.length pre + List.length bs) with (List.length (pre ++ bs)) by apply app_length.
      rewrite (IH _ _ R). unfold blob_of. simpl. rewrite E, <- app_assoc. reflexivity. }
    assert (SZ : forall k, size_of_args l k = Some r -> exists r', size_of_args l 0 = Some r' /\ r = k + r').
    { intros k K. pose proof (size_of_args_add l k r K big) as E. exists (List.length (blob_of big l)).
      split; [|exact E]. clear -K. revert k r K.
      assert (G : forall l k r j, size_of_args l k = Some r -> size_of_args l j = Some (j + List.length (blob_of big l))).
      { induction l0 as [|[] l0 IHl]; cbn [size_of_args]; intros k r j K; try discriminate.
        - simpl. f_equal. lia.
        - rewrite (IHl _ _ (j + 1) K). f_equal. unfold blob_of. simpl. lia.
        - rewrite (IHl _ _ (j + 8) K). f_equal. unfold blob_of. cbn [flat_map enc].
          rewrite app_length, bytes8_length. lia.
        - rewrite (IHl _ _ (j + 8) K). f_equal. unfold blob_of. cbn [flat_map enc].
          rewrite app_length, bytes8_length. lia. }
      intros k r K. rewrite (G l k r 0 K). reflexivity. }
    destruct a; cbn [size_of_args] in H; try discriminate; cbn [write_args].
    + destruct (SZ _ H) as (r' & R & E). specialize (STEP _ eq_refl _ R E). cbn [enc List.length] in STEP. exact STEP.
    + destruct (SZ _ H) as (r' & R & E). specialize (STEP (bytes8 big z) eq_refl _ R).
      rewrite bytes8_length in STEP. exact (STEP E).
    + destruct (SZ _ H) as (r' & R & E). specialize (STEP (bytes8 big bits) eq_refl _ R).
      rewrite bytes8_length in STEP. exact (STEP E).
Qed.

Lemma size_some : forall l, Forall good_arg l -> exists r, size_of_args l 0 = Some r.
Proof.
  intros l. assert (G : forall n, Forall good_arg l -> exists r, size_of_args l n = Some r).
  { induction l as [|[] l IH]; intros n F; simpl; eauto; inversion F; subst; auto. contradiction. }
  apply G.
Qed.

Lemma pack_ok : forall big l, Forall good_arg l ->
  pack_arguments big l = Some (map Some (blob_of big l), List.length (blob_of big l)).
Proof.
  intros big l F. unfold pack_arguments. destruct (size_some l F) as [r R]. rewrite R.
  pose proof (write_args_ok big l [] r R) as W. simpl in W. rewrite W.
  rewrite (size_of_args_add _ _ _ R big). reflexivity.
Qed.

Lemma signature_ok : forall l outs, Forall good_arg l ->
  (exists t, out_letter outs t) -> exists s t, arg_types l = Some s /\ out_letter outs t /\
    generate_signature l outs = Some (append s (append ":" t)).
Proof.
  intros l outs F [t T].
  assert (A : exists s, arg_types l = Some s).
  { induction l as [|[] l IH]; simpl; eauto; inversion F; subst; try contradiction;
      destruct (IH H2) as [s ->]; eauto. }
  destruct A as [s A]. exists s, t. split; auto. split; auto.
  unfold generate_signature. rewrite A.
  destruct T as [[-> ->]|[[-> ->]|[-> ->]]]; reflexivity.
Qed.

Lemma read_blob_ok : forall big l s t, Forall good_arg l -> arg_types l = Some s ->
  read_blob big (append s (append ":" t)) (blob_of big l) = Some (l, t).
Proof.
  intros big. induction l as [|a l IH]; simpl; intros s t F A.
  - injection A as <-. reflexivity.
  - inversion F; subst. destruct a; simpl in H1; try contradiction;
      destruct (arg_types l) as [s'|]; try discriminate; injection A as <-; specialize (IH s' t H2 eq_refl).
    + cbn. cbn in IH. unfold blob_of in *. cbn in *. rewrite IH. destruct b; reflexivity.
    + cbn [append read_blob Ascii.eqb Bool.eqb]. unfold blob_of in *. cbn [flat_map enc].
      rewrite app_length, bytes8_length. cbn [Nat.ltb Nat.leb plus].
      rewrite skipn_app, bytes8_length, Nat.sub_diag.
      rewrite (skipn_all2 (bytes8 big z)) by (rewrite bytes8_length; lia). cbn [app skipn].
      rewrite firstn_app, bytes8_length, Nat.sub_diag.
      rewrite (firstn_all2 (bytes8 big z)) by (rewrite bytes8_length; lia).
      cbn [firstn]. rewrite app_nil_r, read8_bytes8 by auto. cbn in IH. cbn. rewrite IH. reflexivity.
    + cbn [append read_blob Ascii.eqb Bool.eqb]. unfold blob_of in *. cbn [flat_map enc].
      rewrite app_length, bytes8_length. cbn [Nat.ltb Nat.leb plus].
      rewrite skipn_app, bytes8_length, Nat.sub_diag.
      rewrite (skipn_all2 (bytes8 big bits)) by (rewrite bytes8_length; lia). cbn [app skipn].
      rewrite firstn_app, bytes8_length, Nat.sub_diag.
      rewrite (firstn_all2 (bytes8 big bits)) by (rewrite bytes8_length; lia).
      cbn [firstn]. rewrite app_nil_r, read8_bytes8 by auto. cbn in IH. cbn. rewrite IH. reflexivity.
Qed.

(** ** Definitions of functions *)
Lemma gfn_eqb_spec : forall a b, gfn_eqb a b = true <-> a = b.
Proof.
  intros [|n| |] [|n'| |]; simpl; split; intros H; try discriminate; auto.
  - apply bytes_eqb_spec in H. now subst.
  - injection H as ->. apply bytes_eqb_refl.
Qed.
Lemma defined_in : forall m f, defined m f = true <-> In f m.
Proof.
  intros. unfold defined. rewrite existsb_exists. split.
  - intros (x & I & E). apply gfn_eqb_spec in E. now subst.
  - intros I. exists f. split; auto. now apply gfn_eqb_spec.
Qed.
Lemma defined_not : forall m f, defined m f = false -> ~ In f m.
Proof. intros m f H I. apply defined_in in I. congruence. Qed.

Definition closed (m : list gfn) : Prop := forall f g, In f m -> In g (needs f) -> In g m.
(** Closed up to the functions [fs] which are being defined. *)
Definition closed_but (fs m : list gfn) : Prop :=
  forall f g, In f m -> ~ In f fs -> In g (needs f) -> In g m.

Lemma nodup_snoc : forall m (f : gfn), NoDup m -> ~ In f m -> NoDup (m ++ [f]).
Proof.
  induction m as [|x m IH]; simpl; intros f N I; [repeat constructor; auto|].
  inversion N; subst. constructor.
  - rewrite in_app_iff. simpl. intros [K|[->|[]]]; auto.
  - apply IH; auto.
Qed.

Lemma def_error_ok : forall fs m, NoDup m -> closed_but fs m ->
  NoDup (def_error m) /\ closed_but fs (def_error m) /\ incl m (def_error m) /\ In FError (def_error m).
Proof.
  intros fs m N C. unfold def_error. destruct (defined m FError) eqn:E.
  - apply defined_in in E. repeat split; auto. apply incl_refl.
  - apply defined_not in E. repeat split.
    + now apply nodup_snoc.
    + intros f g F NF G. rewrite in_app_iff in *. destruct F as [F|[<-|[]]]; [left; eauto | contradiction].
    + now apply incl_appl, incl_refl.
    + rewrite in_app_iff. simpl. auto.
Qed.
Lemma def_response_ok : forall fs m, NoDup m -> closed_but fs m -> ~ In FResponse fs ->
  NoDup (def_response m) /\ closed_but fs (def_response m) /\ incl m (def_response m) /\ In FResponse (def_response m).
Proof.
  intros fs m N C NR. unfold def_response. destruct (defined m FResponse) eqn:E.
  - apply defined_in in E. repeat split; auto. apply incl_refl.
  - apply defined_not in E.
    destruct (def_error_ok (FResponse :: fs) (m ++ [FResponse])) as (A & B & I & D).
    + now apply nodup_snoc.
    + intros f g F NF G. rewrite in_app_iff in F. destruct F as [F|[<-|[]]].
      * rewrite in_app_iff. left. apply (C f g); auto. intros K; apply NF; now right.
      * elim NF. now left.
    + repeat split; auto.
      * intros f g F NF G. destruct (gfn_eqb f FResponse) eqn:Q.
        -- apply gfn_eqb_spec in Q as ->. destruct G as [<-|[]]. exact D.
        -- apply (B f g); auto. intros [<-|K]; [|auto]. discriminate.
      * intros x X. apply I. rewrite in_app_iff. auto.
      * apply I. rewrite in_app_iff. simpl. auto.
Qed.
Lemma def_validation_ok : forall fs m, NoDup m -> closed_but fs m -> ~ In FResponse fs -> ~ In FValidation fs ->
  NoDup (def_validation m) /\ closed_but fs (def_validation m) /\ incl m (def_validation m) /\
  In FValidation (def_validation m).
Proof.
  intros fs m N C NR NV. unfold def_validation. destruct (defined m FValidation) eqn:E.
  - apply defined_in in E. repeat split; auto. apply incl_refl.
  - apply defined_not in E.
    destruct (def_response_ok (FValidation :: fs) (m ++ [FValidation])) as (A & B & I & D).
    + now apply nodup_snoc.
    + intros f g F NF G. rewrite in_app_iff in F. destruct F as [F|[<-|[]]].
      * rewrite in_app_iff. left. apply (C f g); auto. intros K; apply NF; now right.
      * elim NF. now left.
    + intros [K|K]; [discriminate | auto].
    + repeat split; auto.
      * intros f g F NF G. destruct (gfn_eqb f FValidation) eqn:Q.
        -- apply gfn_eqb_spec in Q as ->. destruct G as [<-|[]]. exact D.
        -- apply (B f g); auto. intros [<-|K]; [|auto]. discriminate.
      * intros x X. apply I. rewrite in_app_iff. auto.
      * apply I. rewrite in_app_iff. simpl. auto.
Qed.
Lemma def_lookup_ok : forall n m, NoDup m -> closed m ->
  NoDup (def_lookup n m) /\ closed (def_lookup n m) /\ incl m (def_lookup n m) /\ In (FLookup n) (def_lookup n m).
Proof.
  intros n m N C. unfold def_lookup. destruct (defined m (FLookup n)) eqn:E.
  - apply defined_in in E. repeat split; auto. apply incl_refl.
  - apply defined_not in E.
    destruct (def_validation_ok [FLookup n] (m ++ [FLookup n])) as (A & B & I & D).
    + now apply nodup_snoc.
    + intros f g F NF G. rewrite in_app_iff in F. destruct F as [F|[<-|[]]].
      * rewrite in_app_iff. left. apply (C f g); auto.
      * elim NF. now left.
    + intros [K|[]]; discriminate.
    + intros [K|[]]; discriminate.
    + destruct (def_response_ok [FLookup n] _ A B) as (A2 & B2 & I2 & D2).
      { intros [K|[]]; discriminate. }
      repeat split; auto.
      * intros f g F G. destruct (gfn_eqb f (FLookup n)) eqn:Q.
        -- apply gfn_eqb_spec in Q as ->. destruct G as [<-|[<-|[]]]; [apply I2, D | exact D2].
        -- apply (B2 f g); auto. intros [<-|[]]. simpl in Q. now rewrite bytes_eqb_refl in Q.
      * intros x X. apply I2, I. rewrite in_app_iff. auto.
      * apply I2, I. rewrite in_app_iff. simpl. auto.
Qed.
Lemma closed_nil : forall m, closed m <-> closed_but [] m.
Proof. unfold closed, closed_but. split; intros H f g; [intros; eauto | intros; eapply H; eauto]. Qed.

Lemma def_op_ok : forall o m, NoDup m -> closed m ->
  NoDup (def_op o m) /\ closed (def_op o m) /\ incl m (def_op o m) /\ incl (op_needs o) (def_op o m).
Proof.
  intros o m N C.
  assert (R : NoDup (def_response m) /\ closed (def_response m) /\ incl m (def_response m) /\ In FResponse (def_response m)).
  { destruct (def_response_ok [] m) as (A & B & I & D); auto. now apply closed_nil.
    repeat split; auto. now apply closed_nil. }
  destruct R as (R1 & R2 & R3 & R4).
  destruct o as [| | |n| |[|t outs]]; simpl; try (repeat split; auto; intros x [<-|[]]; auto; fail);
    try (repeat split; auto using incl_refl; intros x []; fail).
  - destruct (def_validation_ok [] m) as (A & B & I & D); auto. now apply closed_nil.
    destruct (def_response_ok [] _ A B) as (A2 & B2 & I2 & D2); auto.
    repeat split; auto. now apply closed_nil. intros x X; auto.
    intros x [<-|[<-|[]]]; auto.
  - destruct (def_lookup_ok n m N C) as (A & B & I & D). repeat split; auto. intros x [<-|[]]; auto.
Qed.

Lemma def_ops_ok : forall os m, NoDup m -> closed m ->
  let m' := fold_left (fun m o => def_op o m) os m in
  NoDup m' /\ closed m' /\ incl m m' /\ forall o, In o os -> incl (op_needs o) m'.
Proof.
  induction os as [|o os IH]; simpl; intros m N C.
  - repeat split; auto using incl_refl. intros o [].
  - destruct (def_op_ok o m N C) as (A & B & I & D). destruct (IH _ A B) as (A2 & B2 & I2 & D2).
    repeat split; auto.
    + intros x X. auto.
    + intros o' [<-|K]; auto. intros x X. auto.
Qed.

(** ** Runs *)
(** Traces of runs that go on, the last call first. *)
Inductive tr : bool -> list bytes -> list (ext * bool) -> Prop :=
| tr_nil : tr false [] []
| tr_val : forall ns t, tr false ns t -> tr true ns ((XValidate 0 1 0, true) :: t)
| tr_fn : forall ns t n, tr true ns t -> ~ In n ns -> tr true (n :: ns) ((XFunction n, true) :: t)
| tr_other : forall ns t x, tr true ns t -> gpu_call x = true -> (forall n, x <> XFunction n) ->
    tr true ns ((x, true) :: t).
Inductive ended : list (ext * bool) -> Prop :=
| ended_going : forall v ns t, tr v ns t -> ended t
| ended_panic : forall v ns t x b b', tr v ns t -> is_checked x = true -> (gpu_call x = true -> v = true) ->
    ended ((XPanic 70002, b') :: (XGetError, b) :: (x, false) :: t).

Lemma tr_all_true : forall v ns t, tr v ns t -> forall x b, In (x, b) t -> b = true.
Proof.
  induction 1; simpl; intros x' b I; try contradiction; destruct I as [I|I]; eauto; now injection I as _ <-.
Qed.
Lemma tr_validated : forall v ns t, tr v ns t -> v = true -> In (XValidate 0 1 0, true) t.
Proof. induction 1; intros V; simpl; auto; discriminate. Qed.
Lemma tr_not_validated : forall v ns t, tr v ns t -> v = false -> t = [].
Proof. induction 1; intros V; auto; discriminate. Qed.
Lemma tr_names : forall v ns t, tr v ns t -> forall n b, In (XFunction n, b) t -> In n ns.
Proof.
  induction 1; simpl; intros n' b I; try contradiction.
  - destruct I as [I|I]; [discriminate | eauto].
  - destruct I as [I|I]; [injection I as ->; auto | eauto].
  - destruct I as [I|I]; [injection I as ->; now elim (H1 n') | eauto].
Qed.
Lemma tr_first : forall v ns t, tr v ns t -> forall t1 x b t2, t = t2 ++ (x, b) :: t1 -> gpu_call x = true ->
  In (XValidate 0 1 0, true) t1.
Proof.
  induction 1; intros t1 x' b t2 E G.
  - destruct t2; discriminate.
  - destruct t2 as [|y t2]; inversion E; subst; [discriminate G | eauto].
  - destruct t2 as [|y t2]; inversion E; subst; [eapply tr_validated; eauto | eauto].
  - destruct t2 as [|y t2]; inversion E; subst; [eapply tr_validated; eauto | eauto].
Qed.
Lemma tr_no_val : forall ns t, tr false ns t -> forall b, ~ In (XValidate 0 1 0, b) t.
Proof. intros ns t H b I. apply tr_not_validated in H; auto. subst. contradiction. Qed.
Lemma tr_once : forall v ns t, tr v ns t -> forall x t1 t2 t3,
  (x = XValidate 0 1 0 \/ exists n, x = XFunction n) ->
  t <> t1 ++ (x, true) :: t2 ++ (x, true) :: t3.
Proof.
  induction 1; intros x' t1 t2 t3 X E.
  - destruct t1; discriminate.
  - destruct t1 as [|y t1]; inversion E; subst; [|eapply IHtr; eauto].
    apply (tr_no_val _ _ H true). rewrite in_app_iff. right. now left.
  - destruct t1 as [|y t1]; inversion E; subst; [|eapply IHtr; eauto].
    apply H0. eapply (tr_names _ _ _ H n true). rewrite in_app_iff. right. now left.
  - destruct t1 as [|y t1]; inversion E; subst; [|eapply IHtr; eauto].
    destruct X as [->|[n ->]]; [discriminate | now elim (H1 n)].
Qed.

Section Run.
Variable World : Type.
Variable lib : ext -> World -> World * (bool * Z).
Variable big : bool.
Notation gstate := (gstate World).

Definition inv (s : gstate) : Prop := tr (g_validated s) (map fst (g_ids s)) (g_trace s).

Lemma checked_ok : forall x s, is_checked x = true -> (gpu_call x = true -> g_validated s = true) -> inv s ->
  match checked World lib x s with
  | GVal z s' => g_validated s' = g_validated s /\ g_ids s' = g_ids s /\ g_trace s' = (x, true) :: g_trace s
  | GPanic s' => ended (g_trace s')
  | GStuck => False
  end.
Proof.
  intros x s C G I. unfold checked, call_ext. destruct (lib x (g_world s)) as [w [ok z]]. simpl.
  destruct ok; simpl; auto. unfold run_error, call_ext. simpl.
  destruct (lib XGetError w) as [w2 [b z2]]. simpl. destruct (lib (XPanic 70002) w2) as [w3 [b' z3]]. simpl.
  eapply ended_panic; eauto.
Qed.

Lemma validation_ok : forall s, inv s ->
  match run_validation World lib s with
  | GVal _ s' => inv s' /\ g_validated s' = true /\ g_ids s' = g_ids s
  | GPanic s' => ended (g_trace s')
  | GStuck => False
  end.
Proof.
  intros s I. unfold run_validation. destruct (g_validated s) eqn:V; auto.
  pose proof (checked_ok (XValidate 0 1 0) s eq_refl ltac:(discriminate) I) as C.
  destruct (checked World lib _ s) as [z s'|s'|]; simpl; auto.
  destruct C as (C1 & C2 & C3). split; auto. unfold inv. simpl. rewrite C2, C3. unfold inv in I.
  rewrite V in I. now constructor.
Qed.

Lemma cached_none : forall l n, cached l n = None -> ~ In n (map fst l).
Proof.
  induction l as [|[m z] l IH]; simpl; intros n H; auto.
  destruct (bytes_eqb m n) eqn:E; try discriminate.
  intros [K|K]; [subst; now rewrite bytes_eqb_refl in E | eapply IH; eauto].
Qed.
Lemma lookup_ok : forall n s, inv s ->
  match run_lookup World lib n s with
  | GVal z s' => inv s' /\ cached (g_ids s') n = Some z /\ (g_validated s = true -> g_validated s' = true) /\
      (forall n' z', cached (g_ids s) n' = Some z' -> cached (g_ids s') n' = Some z')
  | GPanic s' => ended (g_trace s')
  | GStuck => False
  end.
Proof.
  intros n s I. unfold run_lookup. destruct (cached (g_ids s) n) as [z|] eqn:E.
  - repeat split; auto.
  - pose proof (validation_ok s I) as V. destruct (run_validation World lib s) as [u s1|s1|]; simpl; auto.
    destruct V as (V1 & V2 & V3).
    pose proof (checked_ok (XFunction n) s1 eq_refl ltac:(auto) V1) as C.
    destruct (checked World lib _ s1) as [z s'|s'|]; simpl; auto.
    destruct C as (C1 & C2 & C3). repeat split.
    + unfold inv. simpl. rewrite C1, C2, C3, V2. unfold inv in V1. rewrite V2 in V1.
      constructor; auto. rewrite V3. now apply cached_none.
    + rewrite bytes_eqb_refl. reflexivity.
    + intros _. congruence.
    + intros n' z' H. destruct (bytes_eqb n n') eqn:Q.
      * apply bytes_eqb_spec in Q as ->. congruence.
      * rewrite C2, V3. exact H.
Qed.

Definition val_ok (s : gstate) (v : gval) : Prop :=
  match v with GCtx _ | GOpt _ => g_validated s = true | _ => True end.

Lemma other_ok : forall x s (k : Z -> list gval), gpu_call x = true -> (forall n, x <> XFunction n) ->
  g_validated s = true -> inv s -> (forall z, Forall (val_ok s) (k z)) ->
  match then_ World (checked World lib x s) (fun z s => GVal (k z) s) with
  | GVal ws s' => inv s' /\ g_validated s' = g_validated s /\ g_ids s' = g_ids s /\ Forall (val_ok s') ws
  | GPanic s' => ended (g_trace s')
  | GStuck => True
  end.
Proof.
  intros x s k G NF V I K.
  assert (C : is_checked x = true) by (destruct x; auto; discriminate).
  pose proof (checked_ok x s C (fun _ => V) I) as H. destruct (checked World lib x s) as [z s'|s'|]; simpl; auto.
  destruct H as (H1 & H2 & H3). split; [|split; [auto|split; [auto|]]].
  - unfold inv in *. rewrite H1, H2, H3. rewrite V in *. now constructor.
  - specialize (K z). clear -K H1. induction K; constructor; auto. destruct x; simpl in *; congruence.
Qed.

Lemma gop_ok : forall o vs s, inv s -> Forall (val_ok s) vs ->
  match run_gop World lib big o vs s with
  | GVal ws s' => inv s' /\ (g_validated s = true -> g_validated s' = true) /\ Forall (val_ok s') ws /\
      (forall n' z', cached (g_ids s) n' = Some z' -> cached (g_ids s') n' = Some z') /\
      (forall n z, In (n, z) (answer (Do o) ws) -> cached (g_ids s') n = Some z)
  | GPanic s' => ended (g_trace s')
  | GStuck => True
  end.
Proof.
  intros o vs s I F. destruct o as [| |id|n|outs|outs]; cbn [run_gop].
  - destruct vs as [|[| |[|i| |]|] [|]]; auto.
    pose proof (validation_ok s I) as V. destruct (run_validation World lib s) as [u s1|s1|]; simpl; auto.
    destruct V as (V1 & V2 & V3).
    pose proof (other_ok (XInit i) s1 (fun r => [GOpt (Some r)]) eq_refl ltac:(discriminate) V2 V1 ltac:(intros; repeat constructor; auto)) as O. cbv beta in O.
    destruct (then_ World (checked World lib (XInit i) s1) (fun z s0 => GVal [GOpt (Some z)] s0));
      auto.
    destruct O as (O1 & O2 & O3 & O4).
    repeat split; auto; try congruence. simpl. intros; contradiction.
  - destruct vs as [|[r| | |] [|]]; auto. inversion F; subst.
    pose proof (other_ok (XDiscard r) s (fun _ => []) eq_refl ltac:(discriminate) H1 I ltac:(intros; repeat constructor; auto)) as O. cbv beta in O.
    destruct (then_ World (checked World lib (XDiscard r) s) (fun _ s0 => GVal [] s0)); auto.
    destruct O as (O1 & O2 & O3 & O4). repeat split; auto; try congruence. simpl. intros; contradiction.
  - repeat split; auto. repeat constructor. simpl. intros; contradiction.
  - pose proof (lookup_ok n s I) as L. destruct (run_lookup World lib n s) as [z s1|s1|]; simpl; auto.
    destruct L as (L1 & L2 & L3 & L4). repeat split; auto. repeat constructor.
    intros n' z' [K|[]]. injection K as <- <-. exact L2.
  - destruct vs as [|[r| | |] [|[|f| |] args]]; auto. inversion F; subst.
    destruct (get_args args) as [l|]; auto. destruct (generate_signature l outs) as [sg|]; auto.
    destruct (pack_arguments big l) as [[blob size]|]; auto.
    pose proof (other_ok (XCall r f size blob sg) s (fun _ => [GCtx r]) eq_refl ltac:(discriminate) H1 I ltac:(intros; repeat constructor; auto)) as O. cbv beta in O.
    destruct (then_ World (checked World lib (XCall r f size blob sg) s) (fun _ s0 => GVal [GCtx r] s0));
      auto.
    destruct O as (O1 & O2 & O3 & O4).
    repeat split; auto; try congruence. simpl. intros; contradiction.
  - assert (RD : forall r (k : Z -> gval), val_ok s (GCtx r) -> (forall z, match k z with GArg _ => True | _ => False end) ->
      match then_ World (checked World lib (XResult r 8) s) (fun z s0 => GVal [GCtx r; k z] s0) with
      | GVal ws s' => inv s' /\ (g_validated s = true -> g_validated s' = true) /\ Forall (val_ok s') ws /\
          (forall n' z', cached (g_ids s) n' = Some z' -> cached (g_ids s') n' = Some z') /\
          (forall n z, In (n, z) (answer (Do (GRead outs)) ws) -> cached (g_ids s') n = Some z)
      | GPanic s' => ended (g_trace s')
      | GStuck => True
      end).
    { intros r k V K.
      assert (KK : forall z, Forall (val_ok s) [GCtx r; k z]).
      { intros z. specialize (K z). repeat constructor; auto. destruct (k z); try contradiction. exact Logic.I. }
      pose proof (other_ok (XResult r 8) s (fun z => [GCtx r; k z]) eq_refl ltac:(discriminate) V I KK) as O. cbv beta in O.
      destruct (then_ World (checked World lib (XResult r 8) s) (fun z s0 => GVal [GCtx r; k z] s0)); auto.
      destruct O as (O1 & O2 & O3 & O4). repeat split; auto; try congruence. simpl. intros; contradiction. }
    destruct outs as [|[] [|]]; auto; destruct vs as [|[r| | |] [|]]; auto; inversion F; subst.
    + repeat split; auto. simpl. intros; contradiction.
    + apply (RD r (fun z => GArg (AInt z))); simpl; auto.
    + apply (RD r (fun z => GArg (AFloat z))); simpl; auto.
Qed.

Definition env_ok (s : gstate) (env : genv) : Prop := forall w v, lookup env w = Some v -> val_ok s v.

Lemma lookups_ok : forall (P : gval -> Prop) env, (forall w v, lookup env w = Some v -> P v) ->
  forall ins vs, lookups env ins = Some vs -> Forall P vs.
Proof.
  intros P env H. induction ins as [|w ins IH]; simpl; intros vs E; [injection E as <-; constructor|].
  destruct (lookup env w) eqn:L; try discriminate. destruct (lookups env ins); try discriminate.
  injection E as <-. constructor; eauto.
Qed.
Lemma lookup_bind : forall (P : gval -> Prop) outs ws env env', bind outs ws env = Some env' ->
  (forall w v, lookup env w = Some v -> P v) -> Forall P ws -> forall w v, lookup env' w = Some v -> P v.
Proof.
  intros P outs ws env env' B H F. unfold bind in B. destruct (Nat.eqb _ _); try discriminate.
  injection B as <-. revert ws F. induction outs as [|o outs IH]; intros [|x ws] F w v; simpl; eauto.
  inversion F; subst. destruct (Nat.eqb o w); [intros K; injection K as <-; auto | eauto].
Qed.

Lemma val_ok_mono : forall s s' v, (g_validated s = true -> g_validated s' = true) -> val_ok s v -> val_ok s' v.
Proof. intros s s' [] H; simpl; auto. Qed.

Lemma grun_ok : forall p env ans s, inv s -> env_ok s env ->
  (forall n z, In (n, z) ans -> cached (g_ids s) n = Some z) ->
  match grun World lib big p env ans s with
  | GVal (_, ans') s' => inv s' /\ (forall n z, In (n, z) ans' -> cached (g_ids s') n = Some z)
  | GPanic s' => ended (g_trace s')
  | GStuck => True
  end.
Proof.
  induction p as [|[[c ins] outs] p IH]; simpl; intros env ans s I E A; auto.
  destruct (lookups env ins) as [vs|] eqn:L; auto.
  pose proof (lookups_ok _ _ E _ _ L) as F.
  assert (ST : match run_cmd World lib big c vs s with
    | GVal ws s' => inv s' /\ (g_validated s = true -> g_validated s' = true) /\ Forall (val_ok s') ws /\
        (forall n' z', cached (g_ids s) n' = Some z' -> cached (g_ids s') n' = Some z') /\
        (forall n z, In (n, z) (answer c ws) -> cached (g_ids s') n = Some z)
    | GPanic s' => ended (g_trace s')
    | GStuck => True end).
  { destruct c as [o|]; [apply gop_ok; auto|]. simpl. destruct vs as [|[| | |[r|]] [|]]; auto.
    - inversion F; subst. repeat split; auto. simpl. intros; contradiction.
    - eapply ended_going; exact I. }
  destruct (run_cmd World lib big c vs s) as [ws s1|s1|]; auto.
  destruct ST as (S1 & S2 & S3 & S4 & S5). destruct (bind outs ws env) as [env'|] eqn:B; auto.
  apply IH; auto.
  - intros w v. apply (lookup_bind (val_ok s1) _ _ _ _ B); auto.
    intros w' v' K. eapply val_ok_mono; eauto.
  - intros n z K. rewrite in_app_iff in K. destruct K; auto.
Qed.
End Run.

(** ** Properties of traces *)
Lemma ended_facts : forall t, ended t -> validated_first (rev t) /\ stops (rev t) /\
  at_most_once (XValidate 0 1 0) (rev t) /\ forall n, at_most_once (XFunction n) (rev t).
Proof.
  intros t H.
  assert (RV : forall (t : list (ext * bool)) a b, rev t = a ++ b -> t = rev b ++ rev a).
  { intros t0 a b E. rewrite <- (rev_involutive t0), E. apply rev_app_distr. }
  assert (VF : forall v ns t, tr v ns t -> validated_first (rev t)).
  { intros v ns t0 T t1 x b t2 E G. apply RV in E. simpl in E. rewrite <- app_assoc in E. simpl in E.
    apply in_rev. eapply tr_first; eauto. }
  assert (ONE : forall x, (x = XValidate 0 1 0 \/ exists n, x = XFunction n) -> at_most_once x (rev t)).
  { intros x X t1 t2 t3 E.
    assert (Q : exists a b c, t = a ++ (x, true) :: b ++ (x, true) :: c).
    { apply RV in E. simpl in E. rewrite rev_app_distr in E. simpl in E.
      exists (rev t3), (rev t2), (rev t1). rewrite E. repeat rewrite <- app_assoc. reflexivity. }
    destruct Q as (a & b & c & Q). destruct H as [v ns t T|v ns t y b1 b2 T C G].
    - eapply tr_once; eauto.
    - destruct a as [|y1 a]; [inversion Q; subst; destruct X as [X|[n X]]; discriminate X|].
      destruct a as [|y2 a]; [inversion Q; subst; destruct X as [X|[n X]]; discriminate X|].
      destruct a as [|y3 a]; [inversion Q|].
      inversion Q; subst. eapply tr_once; eauto. }
  split; [|split; [|split; [apply ONE; auto | intros n; apply ONE; eauto]]].
  - destruct H as [v ns t T|v ns t x b b' T C G]; [eapply VF; eauto|].
    intros t1 y c t2 E GY. apply RV in E. simpl in E. rewrite <- app_assoc in E. simpl in E. apply in_rev.
    destruct (rev t2) as [|y1 u]; simpl in E; [inversion E; subst; discriminate GY|].
    destruct u as [|y2 u]; simpl in E; [inversion E; subst; discriminate GY|].
    destruct u as [|y3 u]; simpl in E.
    + inversion E; subst. eapply tr_validated; eauto.
    + inversion E; subst. eapply tr_first; eauto.
  - intros t1 y t2 E CY. apply RV in E. simpl in E. rewrite <- app_assoc in E. simpl in E.
    destruct H as [v ns t T|v ns t x b b' T C G].
    + assert (I : In (y, false) t) by (rewrite E, in_app_iff; right; now left).
      apply (tr_all_true _ _ _ T) in I. discriminate.
    + destruct (rev t2) as [|y1 u] eqn:R; simpl in E; [inversion E; subst; discriminate CY|].
      destruct u as [|y2 u]; simpl in E; [inversion E; subst; discriminate CY|].
      destruct u as [|y3 u]; simpl in E.
      * inversion E; subst. exists b, b'. rewrite <- (rev_involutive t2), R. reflexivity.
      * inversion E; subst.
        assert (I : In (y, false) (u ++ (y, false) :: rev t1)) by (rewrite in_app_iff; right; now left).
        apply (tr_all_true _ _ _ T) in I. discriminate.
Qed.
