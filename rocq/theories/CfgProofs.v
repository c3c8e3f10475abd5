(** Proofs about the set of type translators: the cache changes nothing. *)
From Coq Require Import List Arith Bool Lia.
From Verif Require Import CfgModel CfgSpec.
Import ListNotations.

(** ** Counts *)
Lemma add_assoc : forall a b c, add (add a b) c = add a (add b c).
Proof. intros [a1 a2 a3] [b1 b2 b3] [c1 c2 c3]. unfold add. simpl. f_equal; lia. Qed.
Lemma add_zero_l : forall a, add zero a = a.
Proof. intros [a b c]. reflexivity. Qed.
Lemma add_zero_r : forall a, add a zero = a.
Proof. intros [a b c]. unfold add. simpl. f_equal; lia. Qed.

Lemma nonempty_public : forall r, public r (nonempty r).
Proof.
  intros [c|]; [|constructor]. simpl. destruct c as [q b p]. unfold is_empty. simpl.
  destruct q; [destruct b; [destruct p|]|]; simpl; try (constructor; discriminate).
Qed.
Lemma public_fun : forall r a b, public r a -> public r b -> a = b.
Proof. intros r a b Ha Hb. destruct Ha; inversion Hb; subst; try reflexivity; congruence. Qed.
Lemma public_nonempty : forall r a, public r a -> a = nonempty r.
Proof. intros r a P. exact (public_fun _ _ _ P (nonempty_public r)). Qed.

Lemma no_params_composite : forall r, composite r (no_params r).
Proof. intros [c|]; [|constructor]. simpl. destruct (c_params c =? 0) eqn:E; [apply Nat.eqb_eq in E; now apply co_some|apply Nat.eqb_neq in E; apply co_params; lia]. Qed.
Lemma composite_fun : forall r a b, composite r a -> composite r b -> a = b.
Proof. intros r a b Ha Hb. destruct Ha; inversion Hb; subst; try reflexivity; lia. Qed.
Lemma composite_no_params : forall r a, composite r a -> a = no_params r.
Proof. intros r a C. exact (composite_fun _ _ _ C (no_params_composite r)). Qed.

(** ** The meaning is unique *)
Scheme means_mind := Minimality for means Sort Prop
with row_means_mind := Minimality for row_means Sort Prop
with answered_mind := Minimality for answered Sort Prop
with replied_mind := Minimality for replied Sort Prop.
Combined Scheme means_all from means_mind, row_means_mind, answered_mind, replied_mind.

Lemma means_unique_all : forall trs,
  (forall t r, means trs t r -> forall r', means trs t r' -> r = r') /\
  (forall ts r, row_means trs ts r -> forall r', row_means trs ts r' -> r = r') /\
  (forall l e n args r, answered trs l e n args r -> forall r', answered trs l e n args r' -> r = r') /\
  (forall x r, replied trs x r -> forall r', replied trs x r' -> r = r').
Proof.
  intros trs. apply means_all.
  - intros e n args D r' M. inversion M; subst; [reflexivity|destruct D; contradiction].
  - intros e n args r r1 Nf Nr A IH C r' M. inversion M; subst; [match goal with D : _ \/ _ |- _ => destruct D; contradiction end|].
    match goal with A' : answered _ _ _ _ _ ?x, C' : composite ?x r' |- _ => rewrite (IH _ A') in C; exact (composite_fun _ _ _ C C') end.
  - intros r' M. inversion M; subst. reflexivity.
  - intros r' M. inversion M; subst; [reflexivity|congruence].
  - intros ts r r1 Rm IH C r' M. inversion M; subst.
    match goal with A' : row_means _ _ ?x, C' : composite ?x r' |- _ => rewrite (IH _ A') in C; exact (composite_fun _ _ _ C C') end.
  - intros a b rows N r' M. inversion M; subst; [congruence|reflexivity].
  - intros r' M. now inversion M.
  - intros n r' M. now inversion M.
  - intros r' M. now inversion M.
  - intros t ts M IH r' Rm. inversion Rm; subst; try reflexivity. match goal with M' : means _ t (Some _) |- _ => pose proof (IH _ M'); discriminate end.
  - intros t ts c c' M IH Rm IHr r' Q. inversion Q as [|? ? M'|? ? d d' M' Rm'|? ? d M' Rm']; subst.
    + pose proof (IH _ M'). discriminate.
    + pose proof (IH _ M') as E. injection E as <-. pose proof (IHr _ Rm') as E. injection E as <-. reflexivity.
    + pose proof (IHr _ Rm'). discriminate.
  - intros t ts c M IH Rm IHr r' Q. inversion Q as [|? ? M'|? ? d d' M' Rm'|? ? d M' Rm']; subst; try reflexivity. pose proof (IHr _ Rm'). discriminate.
  - intros e n args r' A. now inversion A.
  - intros tr l e n args r N A IH r' Q. inversion Q; subst; try contradiction. now apply IH.
  - intros tr l e n args c I Rp IH r' Q. inversion Q; subst; try contradiction;
      match goal with R' : replied _ _ ?x |- _ => pose proof (IH _ R') end; congruence.
  - intros tr l e n args r I Rp IH A IHa r' Q. inversion Q; subst; try contradiction;
      [match goal with R' : replied _ _ (Some _) |- _ => pose proof (IH _ R'); discriminate end|]. now apply IHa.
  - intros r r' Q. now inversion Q.
  - intros t k x y r M IH P Rp IHr r' Q. inversion Q as [|? ? x' y' ? M' P' Rp']; subst. rewrite (IH _ M') in P. rewrite (public_fun _ _ _ P P') in IHr. now apply IHr.
Qed.
Lemma means_unique : forall trs t r r', means trs t r -> means trs t r' -> r = r'.
Proof. intros trs t r r' A B. exact (proj1 (means_unique_all trs) _ _ A _ B). Qed.

(** ** The table of extensions *)
Definition times (e : nat) (l : list nat) : nat := count_occ Nat.eq_dec l e.

Lemma lookup_push : forall m e i e', lookup (push m e i) e' = lookup m e' ++ (if e =? e' then [i] else []).
Proof.
  induction m as [|[a l] m IH]; intros e i e'; simpl.
  - destruct (e =? e'); reflexivity.
  - destruct (a =? e) eqn:E1; simpl.
    + apply Nat.eqb_eq in E1. subst a. destruct (e =? e') eqn:E2; [reflexivity|now rewrite app_nil_r].
    + destruct (a =? e') eqn:E2; [|apply IH]. apply Nat.eqb_eq in E2. subst a. rewrite Nat.eqb_sym in E1. rewrite E1. now rewrite app_nil_r.
Qed.
Lemma lookup_push_all : forall es m i e, lookup (push_all m es i) e = lookup m e ++ repeat i (times e es).
Proof.
  unfold push_all. induction es as [|a es IH]; intros m i e; simpl; [now rewrite app_nil_r|].
  rewrite IH, lookup_push, <- app_assoc. f_equal. unfold times. simpl.
  destruct (Nat.eq_dec a e) as [->|N]; [rewrite Nat.eqb_refl; reflexivity|]. apply Nat.eqb_neq in N. now rewrite N.
Qed.

(** The table as it should be: the numbers of the translators, once for each mention. *)
Fixpoint numbers {A : Type} (f : A -> list nat) (e i : nat) (l : list A) : list nat :=
  match l with [] => [] | x :: l => repeat i (times e (f x)) ++ numbers f e (S i) l end.
Lemma numbers_app : forall A (f : A -> list nat) e l i x, numbers f e i (l ++ [x]) = numbers f e i l ++ repeat (i + length l) (times e (f x)).
Proof.
  induction l as [|y l IH]; intros i x; simpl; [now rewrite app_nil_r, Nat.add_0_r|]. rewrite IH, app_assoc. now replace (S i + length l) with (i + S (length l)) by lia.
Qed.
Definition table_ok (s : set) : Prop := forall e, lookup (s_ext s) e = numbers tr_exts e 0 (s_translators s).
Lemma table_add : forall s tr, table_ok s -> table_ok (add_translator s tr).
Proof. intros s tr O e. simpl. rewrite lookup_push_all, numbers_app, O. reflexivity. Qed.

(** ** Soundness *)
Section Fixed.
Variable trs : list translator.
Variable ext : list (nat * list nat).
Hypothesis table : forall e, lookup ext e = numbers tr_exts e 0 trs.

Definition coherent (c : cache) : Prop := forall t r, In (t, r) c -> means trs t r.
Lemma cached_in : forall c t r, cached c t = Some r -> In (t, r) c.
Proof.
  intros c t r E. unfold cached in E. destruct (find _ c) as [[t' r']|] eqn:F; [|discriminate]. injection E as <-.
  apply find_some in F as [I E]. simpl in E. destruct (ty_eq_dec t' t) as [->|]; [exact I|discriminate].
Qed.
Lemma coherent_cons : forall c t r, coherent c -> means trs t r -> coherent ((t, r) :: c).
Proof. intros c t r C M t' r' [E|I]; [injection E as <- <-; exact M|now apply C]. Qed.

Definition sound (rec : ty -> cache -> option (option count * cache)) : Prop :=
  forall t c r c', coherent c -> rec t c = Some (r, c') -> means trs t r /\ coherent c'.

Lemma row_sum_cons : forall rec t ts acc c, t <> TRow -> row_sum rec (t :: ts) acc c =
  match rec t c with None => None | Some (None, c) => Some (None, c) | Some (Some n, c) => row_sum rec ts (add acc n) c end.
Proof. intros rec t ts acc c N. destruct t; try reflexivity. contradiction. Qed.

Lemma row_sound : forall rec, sound rec -> forall ts acc c r c', coherent c -> row_sum rec ts acc c = Some (r, c') ->
  (exists x, row_means trs ts x /\ r = option_map (add acc) x) /\ coherent c'.
Proof.
  intros rec Sd. induction ts as [|t ts IH]; intros acc c r c' C E.
  - injection E as <- <-. split; [|exact C]. exists (Some zero). split; [constructor|]. simpl. now rewrite add_zero_r.
  - assert (D : t = TRow \/ t <> TRow) by (destruct t; [right; discriminate|right; discriminate|now left|right; discriminate]).
    destruct D as [->|N].
    + injection E as <- <-. split; [|exact C]. exists None. split; [apply rm_none; constructor|reflexivity].
    + rewrite row_sum_cons in E by exact N. destruct (rec t c) as [[[n|] c1]|] eqn:Er; [| |discriminate].
      * destruct (Sd _ _ _ _ C Er) as [M C1]. destruct (IH _ _ _ _ C1 E) as [(x & Rm & ->) C2]. split; [|exact C2].
        destruct x as [x|]; [exists (Some (add n x))|exists None]; (split; [|try reflexivity]).
        -- now apply rm_some.
        -- simpl. now rewrite add_assoc.
        -- now apply rm_rest with n.
      * destruct (Sd _ _ _ _ C Er) as [M C1]. injection E as <- <-. split; [|exact C1]. exists None. split; [now apply rm_none|reflexivity].
Qed.

Lemma reply_sound : forall rec, sound rec -> forall x c r c', coherent c -> run_reply rec x c = Some (r, c') ->
  replied trs x r /\ coherent c'.
Proof.
  intros rec Sd. induction x as [x|t k IH]; intros c r c' C E; simpl in E.
  - injection E as <- <-. split; [constructor|exact C].
  - destruct (rec t c) as [[x c1]|] eqn:Er; [|discriminate]. destruct (Sd _ _ _ _ C Er) as [M C1].
    destruct (IH _ _ _ _ C1 E) as [Rp C2]. split; [|exact C2]. exact (re_ask _ _ _ _ _ _ M (nonempty_public x) Rp).
Qed.

Lemma times_in : forall e l, In e l <-> 0 < times e l.
Proof. intros e l. unfold times. apply (count_occ_In Nat.eq_dec). Qed.

Lemma ask_cons : forall rec i is e n args c tr, nth_error trs i = Some tr -> ask_all rec trs (i :: is) e n args c =
  match run_reply rec (tr_type tr e n args) c with
  | None => None
  | Some (Some x, c) => Some (no_params (Some x), c)
  | Some (None, c) => ask_all rec trs is e n args c
  end.
Proof. intros rec i is e n args c tr E. cbn [ask_all]. now rewrite E. Qed.

(** Asking the translators from number [i] on, which are [l]. *)
Lemma ask_sound : forall rec, sound rec -> forall e n args l pre c r c', trs = pre ++ l -> coherent c ->
  ask_all rec trs (numbers tr_exts e (length pre) l) e n args c = Some (r, c') ->
  (exists x, answered trs l e n args x /\ r = no_params x) /\ coherent c'.
Proof.
  intros rec Sd e n args. induction l as [|tr l IH]; intros pre c r c' Ep C E.
  - injection E as <- <-. split; [|exact C]. exists None. split; [constructor|reflexivity].
  - simpl in E. assert (Ntr : nth_error trs (length pre) = Some tr) by (rewrite Ep, nth_error_app2, Nat.sub_diag by lia; reflexivity).
    assert (IH' : forall c r c', coherent c -> ask_all rec trs (numbers tr_exts e (S (length pre)) l) e n args c = Some (r, c') ->
              (exists x, answered trs l e n args x /\ r = no_params x) /\ coherent c').
    { intros c0 r0 c0' C0 E0. apply (IH (pre ++ [tr]) c0 r0 c0'); [now rewrite <- app_assoc|exact C0|]. rewrite app_length. simpl. now rewrite Nat.add_1_r. }
    destruct (times e (tr_exts tr)) as [|m] eqn:Et.
    + destruct (IH' _ _ _ C E) as [(x & A & R) C']. split; [|exact C']. exists x. split; [|exact R]. apply an_skip; [|exact A].
      intros I. apply times_in in I. lia.
    + assert (I : In e (tr_exts tr)) by (apply times_in; lia).
      clear Et. revert c C E. induction m as [|m IHm]; intros c C E.
      * simpl in E. rewrite Ntr in E. destruct (run_reply rec (tr_type tr e n args) c) as [[[x|] c1]|] eqn:Er; [| |discriminate].
        -- destruct (reply_sound rec Sd _ _ _ _ C Er) as [Rp C1]. injection E as <- <-. split; [|exact C1].
           exists (Some x). split; [now apply an_some|reflexivity].
        -- destruct (reply_sound rec Sd _ _ _ _ C Er) as [Rp C1]. destruct (IH' _ _ _ C1 E) as [(x & A & R) C2]. split; [|exact C2].
           exists x. split; [now apply an_none|exact R].
      * change (repeat (length pre) (S (S m)) ++ numbers tr_exts e (S (length pre)) l) with (length pre :: repeat (length pre) (S m) ++ numbers tr_exts e (S (length pre)) l) in E.
        rewrite (ask_cons _ _ _ _ _ _ _ _ Ntr) in E. destruct (run_reply rec (tr_type tr e n args) c) as [[[x|] c1]|] eqn:Er; [| |discriminate].
        -- destruct (reply_sound rec Sd _ _ _ _ C Er) as [Rp C1]. injection E as <- <-. split; [|exact C1].
           exists (Some x). split; [now apply an_some|reflexivity].
        -- destruct (reply_sound rec Sd _ _ _ _ C Er) as [Rp C1]. exact (IHm _ C1 E).
Qed.

Lemma is_param_ext_iff : forall e, is_param_ext e = true <-> e = float_ext \/ e = rotation_ext.
Proof. intros e. unfold is_param_ext. rewrite orb_true_iff, !Nat.eqb_eq. tauto. Qed.

(** The shapes of sums. *)
Inductive shape : list (list ty) -> Prop :=
| sh_void : shape []
| sh_bool : shape [[]; []]
| sh_tuple : forall ts, shape [ts]
| sh_sum : forall a b rows, a :: b :: rows <> [[]; []] -> shape (a :: b :: rows).
Lemma shapes : forall rows, shape rows.
Proof.
  intros [|[|t a] [|[|u b] [|c rows]]]; try (constructor; discriminate); try apply sh_tuple; apply sh_sum; discriminate.
Qed.

Lemma internal_sum : forall f a b rows c, a :: b :: rows <> [[]; []] -> cached c (TSum (a :: b :: rows)) = None ->
  internal trs ext (S f) (TSum (a :: b :: rows)) c = Some (None, (TSum (a :: b :: rows), None) :: c).
Proof.
  intros f a b rows c N E. cbn [internal]. rewrite E. destruct a as [|t a]; [destruct b as [|u b]; [destruct rows; [contradiction|]|]|]; reflexivity.
Qed.
Lemma internal_tuple : forall f ts c, cached c (TSum [ts]) = None ->
  internal trs ext (S f) (TSum [ts]) c =
  match row_sum (internal trs ext f) ts zero c with
  | None => None
  | Some (r, c) => Some (no_params r, (TSum [ts], no_params r) :: c)
  end.
Proof.
  intros f ts c E. cbn [internal]. rewrite E.
  destruct ts; (destruct (row_sum _ _ _ _) as [[r c1]|]; reflexivity).
Qed.

Lemma internal_sound : forall f, sound (internal trs ext f).
Proof.
  induction f as [|f IH]; intros t c r c' C E; [discriminate|].
  destruct (cached c t) as [x|] eqn:Ec.
  { cbn [internal] in E. rewrite Ec in E. injection E as <- <-. split; [apply C; now apply cached_in|exact C]. }
  destruct t as [e n args|rows| |n].
  - cbn [internal] in E. rewrite Ec in E. destruct (is_param_ext e) eqn:Ep.
    + injection E as <- <-. split; [|exact C]. apply m_param. now apply is_param_ext_iff.
    + rewrite table in E. destruct (ask_all _ _ _ _ _ _ _) as [[x c1]|] eqn:Ea; [|discriminate]. injection E as <- <-.
      destruct (ask_sound _ IH e n args trs [] c x c1 eq_refl C Ea) as [(y & A & ->) C1].
      assert (M : means trs (TExt e n args) (no_params y)).
      { apply (m_ext _ _ _ _ y); [| |exact A|apply no_params_composite]; intros ->; discriminate. }
      split; [exact M|]. now apply coherent_cons.
  - destruct (shapes rows) as [| |ts|a b rows N].
    + cbn [internal] in E. rewrite Ec in E. injection E as <- <-. split; [constructor|exact C].
    + cbn [internal] in E. rewrite Ec in E. injection E as <- <-. split; [constructor|exact C].
    + rewrite internal_tuple in E by exact Ec. destruct (row_sum _ _ _ _) as [[x c1]|] eqn:Es; [|discriminate]. injection E as <- <-.
      destruct (row_sound _ IH _ _ _ _ _ C Es) as [(y & Rm & ->) C1].
      assert (M : means trs (TSum [ts]) (no_params (option_map (add zero) y))).
      { apply (m_tuple _ _ y); [exact Rm|]. destruct y as [y|]; [simpl option_map; rewrite add_zero_l|]; apply no_params_composite. }
      split; [exact M|]. now apply coherent_cons.
    + rewrite internal_sum in E by assumption. injection E as <- <-. assert (M := m_sum trs _ _ _ N). split; [exact M|now apply coherent_cons].
  - cbn [internal] in E. rewrite Ec in E. injection E as <- <-. split; [constructor|apply coherent_cons; [exact C|constructor]].
  - cbn [internal] in E. rewrite Ec in E. injection E as <- <-. split; [constructor|apply coherent_cons; [exact C|constructor]].
Qed.

(** ** Completeness *)
Definition enough (f0 : nat) (t : ty) (r : option count) : Prop :=
  forall f c, f0 <= f -> coherent c -> exists c', internal trs ext f t c = Some (r, c') /\ coherent c'.

Lemma enough_intro : forall f0 t r, means trs t r ->
  (forall f c, f0 <= f -> coherent c -> cached c t = None -> exists c', internal trs ext f t c = Some (r, c')) ->
  0 < f0 -> enough f0 t r.
Proof.
  intros f0 t r M K P f c L C. destruct (cached c t) as [x|] eqn:Ec.
  - assert (x = r) as -> by (exact (means_unique trs t _ _ (C _ _ (cached_in _ _ _ Ec)) M)).
    exists c. split; [|exact C]. destruct f; [lia|]. cbn [internal]. now rewrite Ec.
  - destruct (K f c L C Ec) as (c' & E). exists c'. split; [exact E|]. exact (proj2 (internal_sound f _ _ _ _ C E)).
Qed.

Lemma internal_complete_all :
  (forall t r, means trs t r -> exists f0, enough f0 t r) /\
  (forall ts r, row_means trs ts r -> exists f0, forall f c acc, f0 <= f -> coherent c ->
     exists c', row_sum (internal trs ext f) ts acc c = Some (option_map (add acc) r, c') /\ coherent c') /\
  (forall l e n args r, answered trs l e n args r -> exists f0, forall f c pre, trs = pre ++ l -> f0 <= f -> coherent c ->
     exists c', ask_all (internal trs ext f) trs (numbers tr_exts e (length pre) l) e n args c = Some (no_params r, c') /\ coherent c') /\
  (forall x r, replied trs x r -> exists f0, forall f c, f0 <= f -> coherent c ->
     exists c', run_reply (internal trs ext f) x c = Some (r, c') /\ coherent c').
Proof.
  assert (PRE : forall f tr l pre, trs = pre ++ tr :: l -> nth_error trs (length pre) = Some tr /\
            trs = (pre ++ [tr]) ++ l /\ numbers tr_exts f (S (length pre)) l = numbers tr_exts f (length (pre ++ [tr])) l).
  { intros f tr l pre E. split; [|split]; [|now rewrite <- app_assoc|rewrite app_length; simpl; now rewrite Nat.add_1_r].
    rewrite E, nth_error_app2, Nat.sub_diag by lia. reflexivity. }
  assert (NEG : forall e, e <> float_ext -> e <> rotation_ext -> is_param_ext e = false).
  { intros e A B. destruct (is_param_ext e) eqn:E; [|reflexivity]. apply is_param_ext_iff in E. destruct E; contradiction. }
  apply means_all.
  - intros e n args D. exists 1. apply enough_intro; [now constructor| |lia]. intros f c L C Ec. destruct f; [lia|].
    exists c. cbn [internal]. rewrite Ec. apply is_param_ext_iff in D. now rewrite D.
  - intros e n args r r' Nf Nr A [f0 IH] Co. exists (S f0). apply enough_intro; [now apply m_ext with r| |lia].
    intros f c L C Ec. destruct f; [lia|]. destruct (IH f c [] eq_refl ltac:(lia) C) as (c' & E & _).
    cbn [internal]. rewrite Ec, (NEG _ Nf Nr), table. simpl length in E. rewrite E. rewrite (composite_no_params _ _ Co). eauto.
  - exists 1. apply enough_intro; [constructor| |lia]. intros f c L C Ec. destruct f; [lia|]. cbn [internal]. rewrite Ec. eauto.
  - exists 1. apply enough_intro; [constructor| |lia]. intros f c L C Ec. destruct f; [lia|]. cbn [internal]. rewrite Ec. eauto.
  - intros ts r r' Rm [f0 IH] Co. exists (S f0). apply enough_intro; [now apply m_tuple with r| |lia].
    intros f c L C Ec. destruct f; [lia|]. destruct (IH f c zero ltac:(lia) C) as (c' & E & _).
    rewrite internal_tuple by exact Ec. rewrite E, (composite_no_params _ _ Co).
    assert (option_map (add zero) r = r) as -> by (destruct r; [simpl; now rewrite add_zero_l|reflexivity]). eauto.
  - intros a b rows N. exists 1. apply enough_intro; [now constructor| |lia]. intros f c L C Ec. destruct f; [lia|]. rewrite internal_sum by assumption. eauto.
  - exists 1. apply enough_intro; [constructor| |lia]. intros f c L C Ec. destruct f; [lia|]. cbn [internal]. rewrite Ec. eauto.
  - intros n. exists 1. apply enough_intro; [constructor| |lia]. intros f c L C Ec. destruct f; [lia|]. cbn [internal]. rewrite Ec. eauto.
  - exists 0. intros f c acc L C. exists c. simpl. rewrite add_zero_r. auto.
  - intros t ts M [f0 IH]. exists f0. intros f c acc L C. destruct (IH f c L C) as (c' & E & C').
    destruct t; try (exists c'; rewrite row_sum_cons by discriminate; rewrite E; auto). exists c. auto.
  - intros t ts x x' M [f0 IH] Rm [f1 IHr]. exists (f0 + f1). intros f c acc L C. destruct (IH f c ltac:(lia) C) as (c' & E & C').
    destruct (IHr f c' (add acc x) ltac:(lia) C') as (c'' & E' & C''). exists c''. split; [|exact C''].
    rewrite row_sum_cons by (intros ->; inversion M). rewrite E, E'. simpl. now rewrite add_assoc.
  - intros t ts x M [f0 IH] Rm [f1 IHr]. exists (f0 + f1). intros f c acc L C. destruct (IH f c ltac:(lia) C) as (c' & E & C').
    destruct (IHr f c' (add acc x) ltac:(lia) C') as (c'' & E' & C''). exists c''. split; [|exact C''].
    rewrite row_sum_cons by (intros ->; inversion M). now rewrite E, E'.
  - intros e n args. exists 0. intros f c pre Ep L C. exists c. auto.
  - intros tr l e n args r N A [f0 IH]. exists f0. intros f c pre Ep L C. destruct (PRE e _ _ _ Ep) as (_ & Ep' & En).
    destruct (IH f c _ Ep' L C) as (c' & E & C'). exists c'. split; [|exact C']. simpl numbers.
    assert (times e (tr_exts tr) = 0) as -> by (destruct (times e (tr_exts tr)) eqn:T; [reflexivity|exfalso; apply N, times_in; lia]).
    simpl. rewrite En. exact E.
  - intros tr l e n args x I Rp [f0 IH]. exists f0. intros f c pre Ep L C. destruct (PRE e _ _ _ Ep) as (Nt & Ep' & En).
    destruct (IH f c L C) as (c' & E & C'). exists c'. split; [|exact C']. simpl numbers. apply times_in in I.
    destruct (times e (tr_exts tr)); [lia|]. cbn [repeat app ask_all]. now rewrite Nt, E.
  - intros tr l e n args r I Rp [f0 IH] A [f1 IHa]. exists (f0 + f1). intros f c pre Ep L C. destruct (PRE e _ _ _ Ep) as (Nt & Ep' & En).
    simpl numbers. rewrite En. clear I. revert c C. induction (times e (tr_exts tr)) as [|m IHm]; intros c C.
    + exact (IHa f c _ Ep' ltac:(lia) C).
    + destruct (IH f c ltac:(lia) C) as (c' & E & C'). change (repeat (length pre) (S m) ++ numbers tr_exts e (length (pre ++ [tr])) l) with (length pre :: repeat (length pre) m ++ numbers tr_exts e (length (pre ++ [tr])) l).
      rewrite (ask_cons _ _ _ _ _ _ _ _ Nt), E. exact (IHm c' C').
  - intros r. exists 0. intros f c L C. exists c. auto.
  - intros t k x y r M [f0 IH] P Rp [f1 IHr]. exists (f0 + f1). intros f c L C. destruct (IH f c ltac:(lia) C) as (c' & E & C').
    destruct (IHr f c' ltac:(lia) C') as (c'' & E' & C''). exists c''. split; [|exact C'']. simpl. rewrite E. rewrite <- (public_nonempty _ _ P). exact E'.
Qed.
End Fixed.

(** ** Sequences of calls *)
Record set_ok (s : set) : Prop := { so_table : table_ok s; so_cache : coherent (s_translators s) (s_cache s) }.
Lemma new_ok : set_ok new_set.
Proof. split; [intros e; reflexivity|intros t r []]. Qed.
Lemma add_ok : forall s tr, set_ok s -> set_ok (add_translator s tr).
Proof. intros s tr [T C]. split; [now apply table_add|intros t r []]. Qed.

Lemma query_sound : forall f s t r s', set_ok s -> type_to_pytket f s t = Some (r, s') ->
  (exists x, means (s_translators s) t x /\ public x r) /\ set_ok s' /\ s_translators s' = s_translators s.
Proof.
  intros f s t r s' [T C] E. unfold type_to_pytket in E. destruct (internal _ _ _ _ _) as [[x c]|] eqn:Ei; [|discriminate]. injection E as <- <-.
  destruct (internal_sound (s_translators s) (s_ext s) T f t _ _ _ C Ei) as [M C']. split; [exists x; split; [exact M|apply nonempty_public]|].
  split; [split; [exact T|exact C']|reflexivity].
Qed.

Lemma run_sound : forall f l s rs, set_ok s -> run f s l = Some rs -> history (s_translators s) l rs.
Proof.
  intros f. induction l as [|[tr|t] l IH]; intros s rs O E; simpl in E.
  - injection E as <-. constructor.
  - constructor. exact (IH (add_translator s tr) rs (add_ok _ _ O) E).
  - destruct (type_to_pytket f s t) as [[r s']|] eqn:Eq; [|discriminate]. destruct (run f s' l) as [rs'|] eqn:Er; [|discriminate]. injection E as <-.
    destruct (query_sound _ _ _ _ _ O Eq) as ((x & M & P) & O' & Et). apply (hi_query _ _ x); [exact M|exact P|]. rewrite <- Et. now apply IH.
Qed.

Lemma run_complete : forall l s rs, set_ok s -> history (s_translators s) l rs -> exists f0, forall f, f0 <= f ->
  forall s1, set_ok s1 -> s_translators s1 = s_translators s -> s_ext s1 = s_ext s -> run f s1 l = Some rs.
Proof.
  induction l as [|[tr|t] l IH]; intros s rs O H; inversion H as [|? ? ? ? H3|? ? ? ? ? rs0 H2 H4 H6]; subst.
  - exists 0. reflexivity.
  - destruct (IH (add_translator s tr) rs (add_ok _ _ O) H3) as [f0 K]. exists f0. intros f L s1 O1 E Ex. simpl.
    apply (K f L); [now apply add_ok| |]; simpl; now rewrite E, ?Ex.
  - destruct (IH s rs0 O H6) as [f1 K].
    destruct (proj1 (internal_complete_all (s_translators s) (s_ext s) (so_table _ O)) _ _ H2) as [f0 En].
    exists (f0 + f1). intros f L s1 O1 E Ex. simpl. unfold type_to_pytket. rewrite E, Ex.
    destruct (En f (s_cache s1) ltac:(lia)) as (c' & Ei & C'); [rewrite <- E; apply so_cache; exact O1|].
    rewrite Ei, <- (public_nonempty _ _ H4). rewrite (K f ltac:(lia)); [reflexivity| |reflexivity|reflexivity].
    split; [exact (so_table _ O)|exact C'].
Qed.
