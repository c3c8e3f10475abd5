(** Proofs about results. *)
From Coq Require Import String List Arith Bool NArith Lia.
From Verif Require Import AresModel AresSpec.
Import ListNotations.
Local Open Scope N_scope.

(** ** Arguments *)
Lemma params_documented : forall d, all_params d = documented d.
Proof. destruct d; reflexivity. Qed.

Ltac inv_fits :=
  repeat match goal with
         | h : Forall2 fits (_ :: _) _ |- _ => inversion h; subst; clear h
         | h : Forall2 fits [] _ |- _ => inversion h; subst; clear h
         | h : fits PStr _ |- _ => inversion h; subst; clear h
         | h : fits (PNat _) _ |- _ => inversion h; subst; clear h
         end.

Lemma as_u8_small : forall n, n < 256 -> as_u8 n = n.
Proof. intros. unfold as_u8. apply N.mod_small. assumption. Qed.

Lemma instantiate_fits : forall d args,
  Forall2 fits (documented d) args ->
  exists o, instantiate d args = Some o /\ r_def o = d /\ type_args o = args /\ made 7 o.
Proof.
  intros d args h. destruct d; simpl in h; inv_fits;
    unfold instantiate; cbn [instantiate_fuel concrete_args simple_type_op];
    try rewrite as_u8_small by lia;
    eexists; (split; [ reflexivity | split; [ reflexivity | split; [ reflexivity | ] ] ]).
  - apply made_bool.
  - apply made_int; assumption.
  - apply made_uint; assumption.
  - apply made_f64.
  - apply made_array, made_bool.
  - apply made_array, made_int; assumption.
  - apply made_array, made_uint; assumption.
  - apply made_array, made_f64.
Qed.

Lemma concrete_shape : forall args r, concrete_args args = Some r ->
  exists t ns, args = TStr t :: map TNat ns /\ (length ns <= 2)%nat.
Proof.
  intros args r h. unfold concrete_args in h.
  destruct args as [ | [ t | n | ] [ | [ t1 | n1 | ] [ | [ t2 | n2 | ] [ | x l ] ] ] ];
    try discriminate; exists t; [ exists [] | exists [n1] | exists [n1; n2] ]; split;
    try reflexivity; simpl; lia.
Qed.

(** The shapes that are made. *)
Lemma made_shape : forall bound o, made bound o ->
  match r_args o, r_def o with
  | RSimple SBasic, (DBool | DF64) => True
  | RSimple (SInt w), (DInt | DUInt) => w < bound
  | RArray SBasic _, (DArrBool | DArrF64) => True
  | RArray (SInt w) _, (DArrInt | DArrUInt) => w < bound
  | _, _ => False
  end.
Proof.
  intros bound o h. induction h as [ | | t w hw | t w hw | o n h IH ]; simpl; auto.
  destruct o as [t d a]. unfold array_op. simpl in IH |- *.
  destruct a as [ [ | w ] | [ | w ] n0 ]; destruct d; simpl; try contradiction; auto.
Qed.

Lemma instantiate_type_args : forall o, made 256 o ->
  instantiate (r_def o) (type_args o) = Some o.
Proof.
  intros o h. pose proof (made_shape _ _ h) as s. destruct o as [t d a]. simpl in *.
  destruct a as [[ | w] | [ | w] n]; destruct d; try contradiction;
    unfold instantiate, type_args; simpl; try rewrite as_u8_small by lia; reflexivity.
Qed.

(** ** Bytes *)
Lemma le_length : forall k v, length (le k v) = k.
Proof. induction k; intro v; simpl; auto. Qed.

Lemma unle_le : forall k v, v < 256 ^ N.of_nat k -> unle (le k v) = v.
Proof.
  induction k; intros v h.
  - simpl in *. lia.
  - cbn [le unle]. rewrite IHk.
    + rewrite N.add_comm. symmetry. apply N.div_mod. lia.
    + apply N.div_lt_upper_bound; [ lia | ].
      replace (N.of_nat (Datatypes.S k)) with (N.succ (N.of_nat k)) in h by lia.
      rewrite N.pow_succ_r' in h. exact h.
Qed.

Lemma bytes_length : forall k vals, length (flat_map (le k) vals) = (length vals * k)%nat.
Proof.
  induction vals; simpl; auto. rewrite app_length, le_length, IHvals. reflexivity.
Qed.

Lemma firstn_exact : forall (A : Type) (a b : list A) n, length a = n -> firstn n (a ++ b) = a.
Proof.
  intros A a b n h. subst. rewrite firstn_app, Nat.sub_diag, firstn_all. simpl.
  apply app_nil_r.
Qed.

Lemma skipn_exact : forall (A : Type) (a b : list A) n, length a = n -> skipn n (a ++ b) = b.
Proof.
  intros A a b n h. subst. rewrite skipn_app, Nat.sub_diag, skipn_all. reflexivity.
Qed.

Lemma chunks_bytes : forall k vals post, in_range k vals ->
  map unle (chunks (length vals) k (flat_map (le k) vals ++ post)) = vals.
Proof.
  intros k vals post h. induction h as [ | v vals hv h IH ]; simpl; auto.
  rewrite <- app_assoc. rewrite firstn_exact by apply le_length.
  rewrite skipn_exact by apply le_length. rewrite unle_le by assumption. f_equal. exact IH.
Qed.

(** ** Memory *)
Lemma set_nth_last : forall (A : Type) (m : list A) (x y : A),
  set_nth (length m) y (m ++ [x]) = m ++ [y].
Proof. induction m; simpl; intros; auto. f_equal. apply IHm. Qed.

Lemma nth_last : forall (A : Type) (m : list A) (x : A), nth_error (m ++ [x]) (length m) = Some x.
Proof. induction m; simpl; auto. Qed.

Lemma nth_before : forall (A : Type) (m n : list A) i x,
  nth_error m i = Some x -> nth_error (m ++ n) i = Some x.
Proof.
  intros A m n i x h. rewrite nth_error_app1; auto. apply nth_error_Some. congruence.
Qed.

Lemma alloca_eq : forall m k vals,
  build_array_alloca m k vals
  = Some (m ++ [BBytes false (flat_map (le k) vals)], (length m, 0%nat)).
Proof.
  intros m k vals. unfold build_array_alloca, store. simpl fst; simpl snd.
  rewrite nth_last. unfold bytes_of. rewrite repeat_length, bytes_length. simpl plus.
  rewrite Nat.leb_refl. rewrite set_nth_last.
  rewrite skipn_all2 by (rewrite repeat_length; lia). simpl. rewrite app_nil_r. reflexivity.
Qed.

Lemma zeros : forall n, flat_map (le 1) (repeat 0 n) = repeat 0 n.
Proof. induction n; simpl; auto. f_equal. exact IHn. Qed.

Lemma struct_eq : forall m len p,
  struct_1d_arr_alloc m len p
  = Some (m ++ [BBytes false (repeat 0 (N.to_nat len)); BStruct len 1 p (length m, 0%nat)],
          (Datatypes.S (length m), 0%nat)).
Proof.
  intros m len p. unfold struct_1d_arr_alloc. rewrite alloca_eq. rewrite zeros.
  rewrite <- app_assoc. rewrite app_length. simpl. rewrite Nat.add_comm. reflexivity.
Qed.

(** What the call does, when the array is in memory at a pointer. *)
Lemma call_eq : forall f t tag m len p b bs,
  nth_error m (fst p) = Some (BBytes b bs) ->
  runtime_print f t tag
    (m ++ [BBytes false (repeat 0 (N.to_nat len)); BStruct len 1 p (length m, 0%nat)])
    (Datatypes.S (length m), 0%nat)
  = if Nat.leb (snd p + N.to_nat len * dsize t) (length bs)
    then Some (Printed f tag
                 (map unle (chunks (N.to_nat len) (dsize t)
                              (firstn (N.to_nat len * dsize t) (skipn (snd p) bs))))
                 (repeat 0 (N.to_nat len)))
    else None.
Proof.
  intros f t tag m len p b bs h. unfold runtime_print. simpl fst.
  rewrite nth_error_app2 by lia.
  replace (Datatypes.S (length m) - length m)%nat with 1%nat by lia. cbn [nth_error].
  rewrite N.mul_1_r. unfold load. simpl fst; simpl snd.
  rewrite (nth_before _ _ _ _ _ h).
  rewrite nth_error_app2 by lia. rewrite Nat.sub_diag. cbn [nth_error].
  destruct (Nat.leb (snd p + N.to_nat len * dsize t) (length bs)) eqn:e.
  - rewrite repeat_length. simpl plus. rewrite Nat.leb_refl. simpl skipn.
    rewrite firstn_all2 with (l := repeat 0 (N.to_nat len)) by (rewrite repeat_length; lia).
    reflexivity.
  - reflexivity.
Qed.

(** The pointer of an array. *)
Lemma to_ptr_holds : forall m k vals v, holds m k vals v ->
  exists m1 p b pre post,
    array_to_ptr m k v = Some (m ++ m1, p)
    /\ nth_error (m ++ m1) (fst p) = Some (BBytes b (pre ++ flat_map (le k) vals ++ post))
    /\ length pre = snd p.
Proof.
  intros m k vals v h. destruct h as [ | b start off pre post h1 h2 ]; simpl.
  - rewrite alloca_eq. exists [BBytes false (flat_map (le k) vals)], (length m, 0%nat), false, [], [].
    split; [ reflexivity | ]. simpl. rewrite nth_last, app_nil_r. auto.
  - exists [], (b, start + off * k)%nat, true, pre, post. rewrite app_nil_r. simpl. auto.
Qed.

Lemma call_ok : forall f t k tag vals v m,
  k = dsize t -> holds m k vals v -> in_range k vals ->
  N.of_nat (length vals) < 4294967296 ->
  exists new,
    print_call f t k tag (N.of_nat (length vals)) v m
    = Done (m ++ new) (Printed f tag vals (repeat 0 (length vals))).
Proof.
  intros f t k tag vals v m hk hh hr hl. unfold print_call.
  destruct (N.leb_spec 4294967296 (N.of_nat (length vals))) as [ e | _ ]; [ lia | ].
  destruct (to_ptr_holds _ _ _ _ hh) as (m1 & p & b & pre & post & e1 & e2 & e3).
  rewrite e1, struct_eq. rewrite (call_eq _ _ _ _ _ _ _ _ e2). rewrite Nat2N.id, <- hk.
  rewrite !app_length, bytes_length, e3.
  assert (hle : Nat.leb (snd p + length vals * k) (snd p + (length vals * k + length post)) = true)
    by (apply Nat.leb_le; lia).
  rewrite hle. rewrite skipn_exact by assumption.
  rewrite firstn_exact by apply bytes_length.
  rewrite <- (app_nil_r (flat_map (le k) vals)). rewrite chunks_bytes by assumption.
  rewrite <- app_assoc. eexists. reflexivity.
Qed.

Lemma call_exact_undefined : forall f t k tag vals v m,
  (k < dsize t)%nat -> vals <> [] -> holds_exact m k vals v ->
  N.of_nat (length vals) < 4294967296 ->
  print_call f t k tag (N.of_nat (length vals)) v m = Undefined.
Proof.
  intros f t k tag vals v m hk hn hh hl. unfold print_call.
  destruct (N.leb_spec 4294967296 (N.of_nat (length vals))) as [ e | _ ]; [ lia | ].
  assert (hp : exists m1 b i, array_to_ptr m k v = Some (m ++ m1, (i, 0%nat))
               /\ nth_error (m ++ m1) i = Some (BBytes b (flat_map (le k) vals))).
  { destruct hh as [ | i hi ]; simpl.
    - rewrite alloca_eq. exists [BBytes false (flat_map (le k) vals)], false, (length m).
      split; auto. apply nth_last.
    - exists [], true, i. rewrite app_nil_r. auto. }
  destruct hp as (m1 & b & i & e1 & e2).
  rewrite e1, struct_eq.
  rewrite (call_eq f t tag (m ++ m1) _ (i, 0%nat) _ _ e2). rewrite Nat2N.id.
  rewrite bytes_length.
  assert (hlt : Nat.leb (snd (i, 0%nat) + length vals * dsize t) (length vals * k) = false).
  { apply Nat.leb_gt. simpl. destruct vals as [ | x vals ]; [ congruence | ].
    apply Nat.mul_lt_mono_pos_l; simpl; lia. }
  rewrite hlt. reflexivity.
Qed.

(** Arrays that go through a pointer. *)
Lemma from_to_ptr : forall low m k vals v, lowered low v -> holds m k vals v -> in_range k vals ->
  exists new p v',
    array_to_ptr m k v = Some (m ++ new, p)
    /\ array_from_ptr low (m ++ new) k p (length vals) = Some v'
    /\ lowered low v' /\ holds (m ++ new) k vals v'.
Proof.
  intros low m k vals v hl hh hr.
  destruct (to_ptr_holds _ _ _ _ hh) as (m1 & p & b & pre & post & e1 & e2 & e3).
  exists m1, p. destruct hl.
  - exists (AStack vals). split; [ exact e1 | ]. unfold array_from_ptr, load. rewrite e2.
    rewrite !app_length, bytes_length, e3.
    assert (hle : Nat.leb (snd p + length vals * k) (snd p + (length vals * k + length post)) = true)
      by (apply Nat.leb_le; lia).
    rewrite hle. rewrite skipn_exact by assumption.
    rewrite firstn_exact by apply bytes_length.
    rewrite <- (app_nil_r (flat_map (le k) vals)). rewrite chunks_bytes by assumption.
    split; [ reflexivity | ]. split; constructor.
  - exists (AHeap p 0). split; [ exact e1 | ]. split; [ reflexivity | ]. split; [ constructor | ].
    inversion hh as [ | b1 st of1 pr po h1 h2 ]. subst. simpl in e1. inversion e1 as [ [ hm hp ] ].
    econstructor; [ | rewrite Nat.mul_0_l, Nat.add_0_r; exact h2 ].
    assert (hnil : m1 = []).
    { apply (f_equal (@length block)) in hm. rewrite app_length in hm.
      destruct m1; [ reflexivity | simpl in hm; lia ]. }
    subst m1. rewrite !(app_nil_r m). exact h1.
Qed.

(** Operations on arrays that are made. *)
Lemma made_array_print : forall o s n, made 7 o -> r_args o = RArray s n ->
  exists f t, print_of (r_def o) = Some (f, t) /\ reports (r_def o) f (dsize t)
    /\ (forall w, s = SInt w -> (r_def o = DArrInt \/ r_def o = DArrUInt) /\ w < 7
                                /\ elem_of (r_def o) s = EInt w /\ dsize t = 8%nat)
    /\ (s = SBasic -> esize (elem_of (r_def o) s) = dsize t).
Proof.
  intros o s n h e. pose proof (made_shape _ _ h) as sh. rewrite e in sh.
  destruct s as [ | w ]; destruct (r_def o); try contradiction; simpl;
    eexists; eexists; (split; [ reflexivity | split; [ constructor | split ] ]);
    intros; try discriminate; try reflexivity;
    match goal with h : SInt _ = SInt _ |- _ => inversion h; subst end; auto.
Qed.

Lemma esize_narrow : forall w, w < 6 -> (esize (EInt w) < 8)%nat.
Proof.
  intros w h. unfold esize.
  destruct (N.leb_spec w 3); [ lia | ]. destruct (N.eqb_spec w 4); [ lia | ].
  destruct (N.eqb_spec w 5); lia.
Qed.

(** ** Loops *)
Lemma stack_bytes_app : forall a b, stack_bytes (a ++ b) = (stack_bytes a + stack_bytes b)%nat.
Proof.
  induction a as [ | x a IH ]; intro b; simpl; auto.
  destruct x as [ [] l | ]; rewrite IH; lia.
Qed.

Lemma holds_app : forall m new k vals v, holds m k vals v -> holds (m ++ new) k vals v.
Proof.
  intros m new k vals v h. destruct h as [ | b start off pre post h1 h2 ].
  - constructor.
  - econstructor; eauto. apply nth_before. exact h1.
Qed.

Lemma call_stack : forall f t k tag vals v m m' e,
  holds m k vals v ->
  print_call f t k tag (N.of_nat (length vals)) v m = Done m' e ->
  exists new, m' = m ++ new /\ (24 + length vals <= stack_bytes new)%nat.
Proof.
  intros f t k tag vals v m m' e hh he. unfold print_call in he.
  destruct (4294967296 <=? N.of_nat (length vals)); [ discriminate | ].
  destruct (to_ptr_holds _ _ _ _ hh) as (m1 & p & b & pre & post & e1 & _ & _).
  rewrite e1, struct_eq in he. destruct (runtime_print _ _ _ _ _); [ | discriminate ].
  inversion he. rewrite <- app_assoc. eexists. split; [ reflexivity | ].
  rewrite stack_bytes_app. simpl. rewrite repeat_length, Nat2N.id. lia.
Qed.
