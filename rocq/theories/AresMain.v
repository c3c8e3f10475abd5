(** Proofs of the properties of results: arguments of the operations, arrays that are printed. *)
From Coq Require Import String List Arith Bool NArith Lia.
From Verif Require Import AresModel AresSpec AresProofs.
Import ListNotations.
Local Open Scope N_scope.

Lemma C97_arguments_pf : forall d args,
  all_params d = documented d
  /\ (Forall2 fits (all_params d) args ->
      exists o, instantiate d args = Some o /\ r_def o = d /\ type_args o = args /\ made 7 o).
Proof.
  intros d args. split; [ apply params_documented | ].
  rewrite params_documented. apply instantiate_fits.
Qed.

Lemma C97_operations_pf : forall o, made 256 o ->
  instantiate (r_def o) (type_args o) = Some o.
Proof.
 exact instantiate_type_args. Qed.

Lemma C97_injective_pf : forall o o', made 256 o -> made 256 o' ->
  r_def o = r_def o' -> type_args o = type_args o' -> o = o'.
Proof.
  intros o o' h h' e1 e2. pose proof (instantiate_type_args _ h) as x.
  rewrite e1, e2, (instantiate_type_args _ h') in x. congruence.
Qed.

Lemma C97_shape_pf : forall d args o, instantiate d args = Some o ->
  exists ns, args = TStr (r_tag o) :: map TNat ns /\ (length ns <= 2)%nat.
Proof.
  intros d args o h.
  assert (hc : exists t ns, args = TStr t :: map TNat ns /\ (length ns <= 2)%nat).
  { unfold instantiate in h. cbn [instantiate_fuel] in h.
    destruct (concrete_args args) as [ [ [ t a ] b ] | ] eqn:e; [ | discriminate ].
    exact (concrete_shape _ _ e). }
  destruct hc as (t & ns & -> & hl). exists ns. split; [ | exact hl ].
  destruct ns as [ | n [ | w [ | x ns ] ] ]; simpl in hl; [ | | | lia ];
    unfold instantiate in h; destruct d; simpl in h; try discriminate; inversion h; reflexivity.
Qed.

Lemma C97_array_pf : forall o n, made 256 o ->
  (forall t d s, o = {| r_tag := t; r_def := d; r_args := RSimple s |} ->
     exists d', array_op o n = {| r_tag := t; r_def := d'; r_args := RArray s n |}
                /\ exists f k, reports d' f k)
  /\ (forall t d s k, o = {| r_tag := t; r_def := d; r_args := RArray s k |} ->
     array_op o n = {| r_tag := t; r_def := d; r_args := RArray s n |}).
Proof.
  intros o n h. pose proof (made_shape _ _ h) as sh. split.
  - intros t d s ->. simpl in sh. eexists. split; [ reflexivity | ].
    destruct s, d; try contradiction; simpl; do 2 eexists; constructor.
  - intros t d s k ->. reflexivity.
Qed.

Lemma C97_unchecked_refuted_pf : forall t n w,
  (exists o, instantiate DBool [TStr t; TNat n] = Some o /\ r_def o = DArrBool)
  /\ (exists o, instantiate DArrBool [TStr t; TNat n; TNat w] = Some o
                /\ type_args o = [TStr t; TNat n])
  /\ (exists o, instantiate DInt [TStr t; TNat 262] = Some o /\ type_args o = [TStr t; TNat 6]).
Proof.
  intros t n w. split; [ | split ]; eexists; (split; [ reflexivity | reflexivity ]).
Qed.

Lemma C98_printed_partial_pf : forall o s tag vals v m,
  made 7 o -> r_args o = RArray s (N.of_nat (length vals)) ->
  (s = SBasic \/ s = SInt 6) ->
  N.of_nat (length vals) < 4294967296 ->
  exists f k, reports (r_def o) f k
    /\ (holds m k vals v -> in_range k vals ->
        exists new, emit_print o tag v m
                    = Done (m ++ new) (Printed f tag vals (repeat 0 (length vals)))).
Proof.
  intros o s tag vals v m hm ha hs hl.
  destruct (made_array_print _ _ _ hm ha) as (f & t & e1 & e2 & e3 & e4).
  exists f, (dsize t). split; [ exact e2 | ]. intros hh hr.
  unfold emit_print. rewrite ha, e1.
  assert (hk : esize (elem_of (r_def o) s) = dsize t).
  { destruct hs as [ -> | -> ]; [ apply e4; reflexivity | ].
    destruct (e3 6 eq_refl) as (_ & _ & e5 & e6). rewrite e5, e6. reflexivity. }
  rewrite hk. apply call_ok; auto.
Qed.

Lemma C98_state_pf : forall tag vals v m,
  N.of_nat (length vals) < 4294967296 -> holds m 8 vals v -> in_range 8 vals ->
  exists new, emit_state tag (N.of_nat (length vals)) v m
              = (Done (m ++ new) (Printed PState tag vals (repeat 0 (length vals))), v)
              /\ holds (m ++ new) 8 vals v.
Proof.
  intros tag vals v m hl hh hr.
  destruct (call_ok PState TInt 8 tag vals v m eq_refl hh hr hl) as (new & e).
  exists new. split; [ | apply holds_app; exact hh ]. unfold emit_state. simpl esize.
  rewrite e. reflexivity.
Qed.

Lemma C98_length_pf : forall o s n tag v m,
  made 7 o -> r_args o = RArray s n ->
  (emit_print o tag v m = Refused <-> 4294967296 <= n).
Proof.
  intros o s n tag v m hm ha.
  destruct (made_array_print _ _ _ hm ha) as (f & t & e1 & _).
  unfold emit_print. rewrite ha, e1. unfold print_call.
  destruct (N.leb_spec 4294967296 n) as [ h | h ].
  - split; auto.
  - split; [ | lia ]. destruct (array_to_ptr _ _ _) as [ [ m1 p ] | ]; [ | discriminate ].
    destruct (struct_1d_arr_alloc _ _ _) as [ [ m2 q ] | ]; [ | discriminate ].
    destruct (runtime_print _ _ _ _ _); discriminate.
Qed.

Lemma C98_narrow_refuted_pf : forall o w tag vals v m,
  made 7 o -> r_args o = RArray (SInt w) (N.of_nat (length vals)) -> w < 6 ->
  vals <> [] -> N.of_nat (length vals) < 4294967296 ->
  holds_exact m (esize (EInt w)) vals v ->
  emit_print o tag v m = Undefined.
Proof.
  intros o w tag vals v m hm ha hw hn hl hh.
  destruct (made_array_print _ _ _ hm ha) as (f & t & e1 & _ & e3 & _).
  destruct (e3 w eq_refl) as (_ & _ & e5 & e6).
  unfold emit_print. rewrite ha, e1, e5.
  apply call_exact_undefined; auto. rewrite e6. apply esize_narrow. exact hw.
Qed.

Lemma C98_narrow_values_refuted_pf : forall o tag a b rest post i m,
  made 7 o -> r_args o = RArray (SInt 5) (N.of_nat (length (a :: b :: rest))) ->
  N.of_nat (length (a :: b :: rest)) < 4294967296 ->
  in_range 4 (a :: b :: rest) ->
  nth_error m i = Some (BBytes true (flat_map (le 4) (a :: b :: rest) ++ post)) ->
  (4 * length (a :: b :: rest) <= length post)%nat ->
  exists m' f others mask,
    emit_print o tag (AHeap (i, 0%nat) 0) m
    = Done m' (Printed f tag (a + 4294967296 * b :: others) mask).
Proof.
  intros o tag a b rest post i m hm ha hl hr hi hp.
  destruct (made_array_print _ _ _ hm ha) as (f & t & e1 & _ & e3 & _).
  destruct (e3 5 eq_refl) as (_ & _ & e5 & e6).
  unfold emit_print. rewrite ha, e1, e5. unfold print_call.
  destruct (N.leb_spec 4294967296 (N.of_nat (length (a :: b :: rest)))) as [ h | _ ]; [ lia | ].
  unfold array_to_ptr. rewrite struct_eq.
  assert (hi' : nth_error m (fst (fst (i, 0%nat), (snd (i, 0%nat) + 0 * esize (EInt 5))%nat))
                = Some (BBytes true (flat_map (le 4) (a :: b :: rest) ++ post))) by exact hi.
  rewrite (call_eq _ _ _ _ _ _ _ _ hi'). rewrite Nat2N.id, e6, app_length, bytes_length.
  assert (hle : Nat.leb (snd (fst (i, 0%nat), (snd (i, 0%nat) + 0 * esize (EInt 5))%nat)
                         + length (a :: b :: rest) * 8)
                  (length (a :: b :: rest) * 4 + length post) = true)
    by (apply Nat.leb_le; simpl in *; lia).
  rewrite hle. cbn [snd]. rewrite Nat.mul_0_l. cbn [plus skipn].
  inversion hr as [ | x l ra hr' ]; subst. inversion hr' as [ | x l rb _ ]; subst.
  cbn [length chunks map]. do 3 eexists. exists (repeat 0 (length (a :: b :: rest))).
  cbn [length]. f_equal. f_equal. f_equal.
  replace (firstn 8 (firstn (Datatypes.S (Datatypes.S (length rest)) * 8)
             (flat_map (le 4) (a :: b :: rest) ++ post)))
    with (le 4 a ++ le 4 b) by reflexivity.
  transitivity (unle (le 4 a) + 4294967296 * unle (le 4 b)).
  - cbn [le app unle]. lia.
  - rewrite !unle_le by assumption. reflexivity.
Qed.

Lemma C98_pointer_inverse_pf : forall low m k vals v,
  lowered low v -> holds m k vals v -> in_range k vals ->
  exists new p v',
    array_to_ptr m k v = Some (m ++ new, p)
    /\ array_from_ptr low (m ++ new) k p (length vals) = Some v'
    /\ lowered low v' /\ holds (m ++ new) k vals v'.
Proof.
 exact from_to_ptr. Qed.

Lemma C98_stack_refuted_pf : forall o s tag vals v m f k bound,
  made 7 o -> r_args o = RArray s (N.of_nat (length vals)) ->
  (s = SBasic \/ s = SInt 6) -> N.of_nat (length vals) < 4294967296 ->
  reports (r_def o) f k -> holds m k vals v -> in_range k vals ->
  exists n m', emit_loop n o tag v m = Some m' /\ (bound < stack_bytes m')%nat.
Proof.
  intros o s tag vals v m f k bound hm ha hs hl hrep hh hr.
  assert (step : forall n m, holds m k vals v ->
            exists m', emit_loop n o tag v m = Some m' /\ (n <= stack_bytes m')%nat).
  { clear m hh.
    assert (one : forall m, holds m k vals v ->
              exists new e, emit_print o tag v m = Done (m ++ new) e
                            /\ (1 <= stack_bytes new)%nat).
    { intros m hh. destruct (C98_printed_partial_pf o s tag vals v m hm ha hs hl) as (f' & k' & r' & h).
      assert (hk : k' = k) by (inversion hrep as [ x | x | x | x ]; inversion r' as [ y | y | y | y ];
                               congruence).
      subst k'. destruct (h hh hr) as (new & e). exists new. eexists. split; [ exact e | ].
      destruct (made_array_print _ _ _ hm ha) as (f2 & t2 & e1 & e2 & _ & _).
      assert (ht : forall q, esize (elem_of (r_def o) s) = q ->
                 print_call f2 t2 q tag (N.of_nat (length vals)) v m
                 = Done (m ++ new) (Printed f' tag vals (repeat 0 (length vals)))).
      { intros q hq. subst q. unfold emit_print in e. rewrite ha, e1 in e. exact e. }
      specialize (ht _ eq_refl). unfold print_call in ht.
      destruct (4294967296 <=? N.of_nat (length vals)); [ discriminate | ].
      assert (hp : exists m1 p, array_to_ptr m (esize (elem_of (r_def o) s)) v = Some (m ++ m1, p)).
      { destruct hh; simpl; [ rewrite alloca_eq; eauto | ].
        exists []. eexists. rewrite app_nil_r. reflexivity. }
      destruct hp as (m1 & p & hp). rewrite hp, struct_eq in ht.
      destruct (runtime_print _ _ _ _ _); [ | discriminate ].
      inversion ht as [ [ hn _x ] ]. rewrite <- app_assoc in hn. apply app_inv_head in hn.
      rewrite <- hn, stack_bytes_app. simpl. lia. }
    induction n as [ | n IH ]; intros m hh.
    - exists m. split; [ reflexivity | lia ].
    - assert (more : forall n m0 new0, holds (m0 ++ new0) k vals v ->
                exists m', emit_loop n o tag v (m0 ++ new0) = Some m'
                           /\ (stack_bytes (m0 ++ new0) + n <= stack_bytes m')%nat).
      { clear n IH m hh. induction n as [ | n IH ]; intros m0 new0 hh.
        - eexists. split; [ reflexivity | lia ].
        - destruct (one _ hh) as (new & e & e1 & e2). cbn [emit_loop]. rewrite e1.
          destruct (IH (m0 ++ new0) new (holds_app _ _ _ _ _ hh)) as (m' & h1 & h2).
          exists m'. split; [ exact h1 | ]. rewrite stack_bytes_app in h2. lia. }
      destruct (one _ hh) as (new & e & e1 & e2). cbn [emit_loop]. rewrite e1.
      destruct (more n m new (holds_app _ _ _ _ _ hh)) as (m' & h1 & h2).
      exists m'. split; [ exact h1 | ]. rewrite stack_bytes_app in h2. lia. }
  destruct (step (Datatypes.S bound) m hh) as (m' & h1 & h2).
  exists (Datatypes.S bound), m'. split; [ exact h1 | lia ].
Qed.

