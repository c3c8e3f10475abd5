(** Quantum gates with classical parameters as an interpretation of circuits: a state tells which qubit or which
    classical value each wire holds, and gives an amplitude to each assignment of bits to the qubits. *)
From Coq Require Import List Bool Arith Lia Ring Ring_theory Permutation.
From Verif Require Import PatSpec PatModel PatRewrite.
Import ListNotations.

Section Gates.
Variable Op : Type.
Variables ain aout : Op -> nat.
Variable lin : Op -> nat -> bool.
(** Amplitudes: any commutative ring. *)
Variable R : Type.
Variables (r0 r1 : R) (radd rmul rsub : R -> R -> R) (ropp : R -> R).
Hypothesis Rth : ring_theory r0 r1 radd rmul rsub ropp eq.
Add Ring Rring : Rth.
(** Classical values. *)
Variable P : Type.
Variable d0 : P.
(** The matrix of a gate for the classical values at its other ports; rows and columns are the bits of its qubits in the order
    of its linear ports. [qout]: the output [j] is the qubit of a linear port, or a classical value. *)
Variable matrix : Op -> list P -> list bool -> list bool -> R.
Variable qout : Op -> nat -> option nat.
Variable cout : Op -> list P -> nat -> P.
Hypothesis qout_inj : forall o j j' k, qout o j = Some k -> qout o j' = Some k -> j = j'.
Definition nlin (o : Op) : nat := length (filter (lin o) (seq 0 (ain o))).
Definition lout (o : Op) (j : nat) : bool := match qout o j with Some k => k <? nlin o | None => false end.

Inductive val : Type := Qubit (n : nat) | Bits (v : P).
Record state : Type := { holds : source -> val; amp : (nat -> bool) -> R; amp_ext : forall b b', (forall n, b n = b' n) -> amp b = amp b' }.
Definition is_qubit (v : val) : bool := match v with Qubit _ => true | Bits _ => false end.
Definition classical (v : val) : P := match v with Bits v => v | Qubit _ => d0 end.
Fixpoint names (l : list val) : option (list nat) := match l with [] => Some [] | Qubit n :: l => option_map (cons n) (names l) | Bits _ :: _ => None end.
Fixpoint strings (k : nat) : list (list bool) := match k with 0 => [[]] | S k => map (cons false) (strings k) ++ map (cons true) (strings k) end.
Fixpoint sum {A} (f : A -> R) (l : list A) : R := match l with [] => r0 | x :: l => radd (f x) (sum f l) end.
Fixpoint write (b : nat -> bool) (ns : list nat) (x : list bool) : nat -> bool :=
  match ns, x with n :: ns, y :: x => fun m => if Nat.eqb m n then y else write b ns x m | _, _ => b end.
Definition apply_gate (m : list bool -> list bool -> R) (ns : list nat) (psi : (nat -> bool) -> R) (b : nat -> bool) : R :=
  sum (fun x => rmul (m (map b ns) x) (psi (write b ns x))) (strings (length ns)).
Definition a_params (a : action Op) : list source := map snd (filter (fun x => negb (lin (a_op a) (fst x))) (combine (seq 0 (length (a_ins a))) (a_ins a))).
Definition params (a : action Op) (h : source -> val) : list P := map (fun w => classical (h w)) (a_params a).
Definition holds_after (a : action Op) (h : source -> val) (w : source) : val :=
  match position w (a_outs a) with
  | None => h w
  | Some j => match qout (a_op a) j with Some k => nth k (map h (a_linear lin a)) (Bits d0) | None => Bits (cout (a_op a) (params a h) j) end
  end.
Definition amp_after (a : action Op) (h : source -> val) (psi : (nat -> bool) -> R) : (nat -> bool) -> R :=
  match names (map h (a_linear lin a)) with None => psi | Some ns => apply_gate (matrix (a_op a) (params a h)) ns psi end.
Lemma sum_ext {A} (f g : A -> R) l : (forall x, f x = g x) -> sum f l = sum g l.
Proof. intros H. induction l as [|x l IH]; cbn [sum]; auto. rewrite H, IH. auto. Qed.
Lemma write_ext b b' ns : forall x n, (forall n, b n = b' n) -> write b ns x n = write b' ns x n.
Proof. induction ns as [|m ns IH]; intros [|y x] n H; cbn [write]; auto. destruct (n =? m); auto. Qed.
Lemma apply_ext m ns psi b b' : (forall b b', (forall n, b n = b' n) -> psi b = psi b') -> (forall n, b n = b' n) -> apply_gate m ns psi b = apply_gate m ns psi b'.
Proof.
  intros E H. unfold apply_gate. apply sum_ext. intros x. f_equal; [f_equal; apply map_ext; auto|]. apply E. intros n. apply write_ext. auto.
Qed.
Lemma amp_after_ext a h psi : (forall b b', (forall n, b n = b' n) -> psi b = psi b') -> forall b b', (forall n, b n = b' n) -> amp_after a h psi b = amp_after a h psi b'.
Proof. intros E b b' H. unfold amp_after. destruct (names _); auto. apply apply_ext; auto. Qed.
Definition gact (a : action Op) (s : state) : state := {| holds := holds_after a (holds s); amp := amp_after a (holds s) (amp s); amp_ext := amp_after_ext a (holds s) (amp s) (amp_ext s) |}.
Definition gsame (s t : state) : Prop := (forall w, holds s w = holds t w) /\ forall b, amp s b = amp t b.
Definition gok (L : list source) (s : state) : Prop := forall u w n, In u L -> In w L -> holds s u = Qubit n -> holds s w = Qubit n -> u = w.
Definition glike (C : list (source * source)) (s t : state) : Prop :=
  (forall w w', In (w, w') C -> holds s w = holds t w') /\
  (forall u u' w w' n, In (u, u') C -> In (w, w') C -> holds s u = Qubit n -> holds s w = Qubit n -> u = w /\ u' = w') /\
  forall b, amp s b = amp t b.
Definition gkind (s : state) (w : source) : bool := is_qubit (holds s w).

Lemma map_holds (h h' : source -> val) l : (forall w, In w l -> h w = h' w) -> map h l = map h' l.
Proof. intros H. apply map_ext_in. auto. Qed.
Lemma linear_sub a w : In w (a_linear lin a) -> In w (a_ins a).
Proof. unfold a_linear. intros H. apply in_map_iff in H. destruct H as ([k v] & <- & H). apply filter_In in H. destruct H as [H _]. apply in_combine_r in H. auto. Qed.
Lemma params_sub a w : In w (a_params a) -> In w (a_ins a).
Proof. unfold a_params. intros H. apply in_map_iff in H. destruct H as ([k v] & <- & H). apply filter_In in H. destruct H as [H _]. apply in_combine_r in H. auto. Qed.
Lemma after_local a h h' : (forall w, In w (a_ins a) -> h w = h' w) -> map h (a_linear lin a) = map h' (a_linear lin a) /\ params a h = params a h'.
Proof. intros H. split; [apply map_holds; intros w Hw; apply H, linear_sub; auto|]. unfold params. apply map_ext_in. intros w Hw. rewrite H; auto. apply params_sub. auto. Qed.
Lemma apply_psi m ns psi psi' b : (forall b, psi b = psi' b) -> apply_gate m ns psi b = apply_gate m ns psi' b.
Proof. intros H. unfold apply_gate. apply sum_ext. intros x. rewrite H. auto. Qed.
Lemma gact_same a s t : gsame s t -> gsame (gact a s) (gact a t).
Proof.
  intros [Hh Ha]. destruct (after_local a (holds s) (holds t)) as [El Ep]; [auto|]. split.
  - intros w. cbn [holds gact]. unfold holds_after. rewrite El, Ep, Hh. auto.
  - intros b. cbn [amp gact]. unfold amp_after. rewrite El, Ep. destruct (names _); auto. apply apply_psi. auto.
Qed.
Lemma position_nth w l : forall j, NoDup l -> nth_error l j = Some w -> position w l = Some j.
Proof.
  induction l as [|v l IH]; intros j N H; [destruct j; discriminate|]. inversion N as [|? ? N1 N2]; subst. destruct j as [|j]; cbn [nth_error position] in *.
  - injection H as ->. destruct (source_eq_dec w w); congruence.
  - destruct (source_eq_dec w v) as [->|Ne].
    + exfalso. apply N1. eapply nth_error_In; eauto.
    + rewrite (IH j) by auto. auto.
Qed.
Lemma position_out w l : ~ In w l -> position w l = None.
Proof. intros H. destruct (position w l) eqn:E; auto. apply position_some in E. apply nth_error_In in E. contradiction. Qed.
Lemma holds_out a h w : ~ In w (a_outs a) -> holds_after a h w = h w.
Proof. intros H. unfold holds_after. rewrite position_out; auto. Qed.
Lemma holds_new a h j w : NoDup (a_outs a) -> nth_error (a_outs a) j = Some w -> holds_after a h w = match qout (a_op a) j with Some k => nth k (map h (a_linear lin a)) (Bits d0) | None => Bits (cout (a_op a) (params a h) j) end.
Proof. intros N H. unfold holds_after. rewrite (position_nth w _ j); auto. Qed.
Lemma linear_pairs (Q : source -> source -> Prop) (q : nat -> bool) l l' : Forall2 Q l l' -> forall b, Forall2 Q (map snd (filter (fun x => q (fst x)) (combine (seq b (length l)) l))) (map snd (filter (fun x => q (fst x)) (combine (seq b (length l')) l'))).
Proof. induction 1 as [|x y l l' H F IH]; intros b; cbn [length seq combine filter map]; [constructor|]. cbn [fst]. destruct (q b); cbn [map snd]; auto. Qed.
Lemma forall2_nth {A B} (Q : A -> B -> Prop) l l' : Forall2 Q l l' -> forall k x, nth_error l k = Some x -> exists y, nth_error l' k = Some y /\ Q x y.
Proof. induction 1 as [|x y l l' H F IH]; intros [|k] z E; cbn in *; try discriminate; [injection E as ->; eauto|auto]. Qed.
Lemma forall2_map {A B} (h : A -> val) (h' : B -> val) l l' : Forall2 (fun x y => h x = h' y) l l' -> map h l = map h' l'.
Proof. induction 1; cbn [map]; congruence. Qed.
Lemma in_combine_nth {A B} (l : list A) (l' : list B) x y : In (x, y) (combine l l') -> exists k, nth_error l k = Some x /\ nth_error l' k = Some y.
Proof. revert l'. induction l as [|a l IH]; intros [|b l'] H; cbn in H; try contradiction. destruct H as [[= -> ->]|H]; [exists 0; auto|]. destruct (IH l' H) as (k & H1 & H2). exists (S k). auto. Qed.
Lemma nth_qubit k l n : nth k l (Bits d0) = Qubit n -> nth_error l k = Some (Qubit n).
Proof. intros H. destruct (nth_error l k) eqn:E; [apply nth_error_nth with (d := Bits d0) in E; congruence|]. apply nth_error_None in E. rewrite nth_overflow in H by auto. discriminate. Qed.
Lemma forall2_imp {A B} (Q Q' : A -> B -> Prop) l l' : (forall x y, Q x y -> Q' x y) -> Forall2 Q l l' -> Forall2 Q' l l'.
Proof. induction 2; constructor; auto. Qed.
(** Which qubit a new wire holds. *)
Lemma new_qubit a h j w n : NoDup (a_outs a) -> nth_error (a_outs a) j = Some w -> holds_after a h w = Qubit n ->
  exists k v, qout (a_op a) j = Some k /\ nth_error (a_linear lin a) k = Some v /\ h v = Qubit n.
Proof.
  intros N Hj H. rewrite (holds_new a h j w) in H by auto. destruct (qout (a_op a) j) as [k|]; [|discriminate]. apply nth_qubit in H. rewrite nth_error_map in H. destruct (nth_error (a_linear lin a) k) as [v|] eqn:E; [|discriminate]. cbn in H. injection H as H. eauto.
Qed.
Lemma glike_step C s t a b : glike C s t -> wellformed ain aout lin a -> wellformed ain aout lin b -> a_op a = a_op b -> Forall2 (fun w w' => In (w, w') C) (a_ins a) (a_ins b) ->
  (forall w, In w (a_outs a) -> ~ In w (map fst C)) -> (forall w, In w (a_outs b) -> ~ In w (map snd C)) ->
  glike (without (a_linear lin a) C ++ combine (a_outs a) (a_outs b)) (gact a s) (gact b t).
Proof.
  intros (Lh & Ld & La) (Wi & Wl & Wo & Wn) (Wi' & Wl' & Wo' & Wn') Eo F Fa Fb.
  assert (Fl : Forall2 (fun w w' => In (w, w') C) (a_linear lin a) (a_linear lin b)) by (unfold a_linear; rewrite <- Eo; apply linear_pairs; auto).
  assert (Fp : Forall2 (fun w w' => In (w, w') C) (a_params a) (a_params b)) by (unfold a_params; rewrite <- Eo; apply (linear_pairs _ (fun k => negb (lin (a_op a) k))); auto).
  assert (El : map (holds s) (a_linear lin a) = map (holds t) (a_linear lin b)) by (apply forall2_map; eapply forall2_imp; [|exact Fl]; intros; apply Lh; auto).
  assert (Ep : params a (holds s) = params b (holds t)).
  { unfold params. rewrite <- (map_map (holds s) classical), <- (map_map (holds t) classical). f_equal. apply forall2_map. eapply forall2_imp; [|exact Fp]. intros; apply Lh; auto. }
  assert (Old : forall w w', In (w, w') C -> holds_after a (holds s) w = holds s w /\ holds_after b (holds t) w' = holds t w').
  { intros w w' H. split; apply holds_out; intros Ho; [apply (Fa w Ho)|apply (Fb w' Ho)]; apply in_map_iff; eexists; split; [|exact H| |exact H]; reflexivity. }
  assert (Cw : forall w w', In (w, w') (without (a_linear lin a) C) -> In (w, w') C /\ ~ In w (a_linear lin a)) by (intros w w' H; apply (without_in (a_linear lin a) C (w, w')) in H; auto).
  assert (X : forall u u' w w' n, In (u, u') (without (a_linear lin a) C) -> In (w, w') (combine (a_outs a) (a_outs b)) -> holds_after a (holds s) u = Qubit n -> holds_after a (holds s) w = Qubit n -> False).
  { intros u u' w w' n H1 H2 Q1 Q2. apply Cw in H1. destruct H1 as [H1 N1]. rewrite (proj1 (Old _ _ H1)) in Q1. apply in_combine_nth in H2. destruct H2 as (j & J1 & J2).
    apply (new_qubit a (holds s) j) in Q2; auto. destruct Q2 as (k & v & K1 & K2 & K3). destruct (forall2_nth _ _ _ Fl k v K2) as (v' & _ & Hv). destruct (Ld u u' v v' n) as [-> _]; auto. apply N1. eapply nth_error_In; eauto. }
  split; [|split].
  - intros w w' H. apply in_app_or in H. destruct H as [H|H].
    + apply Cw in H. destruct H as [H _]. cbn [holds gact]. destruct (Old w w' H) as [-> ->]. apply Lh; auto.
    + apply in_combine_nth in H. destruct H as (j & J1 & J2). cbn [holds gact]. rewrite (holds_new a _ j w), (holds_new b _ j w'), <- Eo, El, Ep; auto.
  - intros u u' w w' n Hu Hw Q1 Q2. cbn [holds gact] in Q1, Q2. apply in_app_or in Hu, Hw. destruct Hu as [Hu|Hu], Hw as [Hw|Hw].
    + apply Cw in Hu, Hw. destruct Hu as [Hu _], Hw as [Hw _]. rewrite (proj1 (Old _ _ Hu)) in Q1. rewrite (proj1 (Old _ _ Hw)) in Q2. eauto.
    + exfalso. eauto.
    + exfalso. eauto.
    + apply in_combine_nth in Hu, Hw. destruct Hu as (j & J1 & J2), Hw as (j' & J1' & J2').
      assert (Q1' := Q1). assert (Q2' := Q2). apply (new_qubit a (holds s) j) in Q1; auto. apply (new_qubit a (holds s) j') in Q2; auto. destruct Q1 as (k & v & K1 & K2 & K3), Q2 as (k' & v' & K1' & K2' & K3').
      destruct (forall2_nth _ _ _ Fl k v K2) as (x & _ & Hx). destruct (forall2_nth _ _ _ Fl k' v' K2') as (x' & _ & Hx'). destruct (Ld v x v' x' n) as [-> _]; auto.
      assert (k = k') as <- by (eapply NoDup_nth_error; [exact Wl|apply nth_error_Some; congruence|congruence]). assert (j = j') as <- by eauto. split; congruence.
  - intros c. cbn [amp gact]. unfold amp_after. rewrite El, Ep, <- Eo. destruct (names _); auto. apply apply_psi. auto.
Qed.
Lemma gok_step L s a : gok L s -> wellformed ain aout lin a -> incl (a_ins a) L -> (forall w, In w (a_outs a) -> ~ In w L) -> gok (after_use lin a L) (gact a s).
Proof.
  intros O (Wi & Wl & Wo & Wn) Hi F.
  assert (Old : forall w, In w L -> holds_after a (holds s) w = holds s w) by (intros w H; apply holds_out; intros Ho; apply (F w Ho); auto).
  assert (Cw : forall w, In w (filter (fun w => if in_dec source_eq_dec w (a_linear lin a) then false else true) L) -> In w L /\ ~ In w (a_linear lin a)).
  { intros w H. apply filter_In in H. destruct (in_dec source_eq_dec w (a_linear lin a)); intuition; discriminate. }
  assert (X : forall u w n, In u L -> ~ In u (a_linear lin a) -> In w (a_outs a) -> holds_after a (holds s) u = Qubit n -> holds_after a (holds s) w = Qubit n -> False).
  { intros u w n Hu Nu Hw Q1 Q2. rewrite Old in Q1 by auto. apply In_nth_error in Hw. destruct Hw as (j & Hj). apply (new_qubit a (holds s) j) in Q2; auto. destruct Q2 as (k & v & K1 & K2 & K3). apply nth_error_In in K2.
    assert (u = v) as -> by (apply (O u v n); auto; apply Hi, linear_sub; auto). contradiction. }
  intros u w n Hu Hw Q1 Q2. cbn [holds gact] in Q1, Q2. apply in_app_or in Hu, Hw. destruct Hu as [Hu|Hu], Hw as [Hw|Hw].
  - apply Cw in Hu, Hw. rewrite Old in Q1, Q2 by tauto. apply (O u w n); tauto.
  - exfalso. apply Cw in Hu. apply (X u w n); tauto.
  - exfalso. apply Cw in Hw. apply (X w u n); tauto.
  - apply In_nth_error in Hu, Hw. destruct Hu as (j & Hj), Hw as (j' & Hj'). apply (new_qubit a (holds s) j) in Q1; auto. apply (new_qubit a (holds s) j') in Q2; auto. destruct Q1 as (k & v & K1 & K2 & K3), Q2 as (k' & v' & K1' & K2' & K3').
    assert (v = v') as -> by (apply (O v v' n); auto; apply Hi, linear_sub; eapply nth_error_In; eauto).
    assert (k = k') as <- by (eapply NoDup_nth_error; [exact Wl|apply nth_error_Some; congruence|congruence]). assert (j = j') as <- by eauto. congruence.
Qed.
Lemma sum_add {A} (f g : A -> R) l : sum (fun x => radd (f x) (g x)) l = radd (sum f l) (sum g l).
Proof. induction l as [|x l IH]; cbn [sum]; [ring|]. rewrite IH. ring. Qed.
Lemma sum_zero {A} (l : list A) : sum (fun _ => r0) l = r0.
Proof. induction l as [|x l IH]; cbn [sum]; [ring|]. rewrite IH. ring. Qed.
Lemma sum_mul {A} c (f : A -> R) l : rmul c (sum f l) = sum (fun x => rmul c (f x)) l.
Proof. induction l as [|x l IH]; cbn [sum]; [ring|]. rewrite <- IH. ring. Qed.
Lemma sum_swap {A B} (f : A -> B -> R) l m : sum (fun x => sum (f x) m) l = sum (fun y => sum (fun x => f x y) l) m.
Proof. induction l as [|x l IH]; cbn [sum]; [rewrite sum_zero; auto|]. rewrite IH, sum_add. auto. Qed.
Lemma write_notin b ns : forall x n, ~ In n ns -> write b ns x n = b n.
Proof. induction ns as [|m ns IH]; intros [|y x] n H; cbn [write]; auto. destruct (Nat.eqb_spec n m) as [->|]; [exfalso; apply H; now left|]. apply IH. intros ?; apply H; now right. Qed.
Lemma write_cases b b' ns : forall x n, length x = length ns -> In n ns -> write b ns x n = write b' ns x n.
Proof. induction ns as [|m ns IH]; intros [|y x] n L H; cbn [write]; try discriminate; [destruct H|]. destruct (Nat.eqb_spec n m); auto. apply IH; [injection L; auto|]. destruct H as [->|H]; [congruence|auto]. Qed.
Lemma write_comm b ns ms : (forall n, In n ns -> ~ In n ms) -> forall x y n, length x = length ns -> length y = length ms -> write (write b ns x) ms y n = write (write b ms y) ns x n.
Proof.
  intros D x y n Lx Ly. destruct (in_dec Nat.eq_dec n ns) as [H|H].
  - rewrite write_notin by (apply D; auto). apply write_cases; auto.
  - rewrite (write_notin (write b ms y) ns) by auto. destruct (in_dec Nat.eq_dec n ms) as [H'|H']; [apply write_cases; auto|]. rewrite !write_notin by auto. auto.
Qed.
Lemma sum_ext_in {A} (f g : A -> R) l : (forall x, In x l -> f x = g x) -> sum f l = sum g l.
Proof. intros H. induction l as [|x l IH]; cbn [sum]; auto. rewrite H by now left. rewrite IH; auto. intros y Hy. apply H. now right. Qed.
Lemma strings_length k : forall x, In x (strings k) -> length x = k.
Proof. induction k as [|k IH]; intros x H; cbn [strings] in H; [destruct H as [<-|[]]; auto|]. apply in_app_or in H. destruct H as [H|H]; apply in_map_iff in H; destruct H as (y & <- & H); cbn [length]; rewrite (IH y); auto. Qed.
Lemma gates_commute m m' ns ms psi b : (forall b b', (forall n, b n = b' n) -> psi b = psi b') -> (forall n, In n ns -> ~ In n ms) -> apply_gate m ns (apply_gate m' ms psi) b = apply_gate m' ms (apply_gate m ns psi) b.
Proof.
  intros E D. unfold apply_gate.
  transitivity (sum (fun x => sum (fun y => rmul (rmul (m (map b ns) x) (m' (map b ms) y)) (psi (write (write b ns x) ms y))) (strings (length ms))) (strings (length ns))).
  { apply sum_ext_in. intros x Hx. rewrite sum_mul. apply sum_ext_in. intros y Hy. replace (map (write b ns x) ms) with (map b ms); [ring|]. apply map_ext_in. intros n Hn. rewrite write_notin; auto. intros H. apply (D n); auto. }
  rewrite sum_swap. apply sum_ext_in. intros y Hy. rewrite sum_mul. apply sum_ext_in. intros x Hx. replace (map (write b ms y) ns) with (map b ns) by (apply map_ext_in; intros n Hn; rewrite write_notin; auto).
  rewrite (E (write (write b ns x) ms y) (write (write b ms y) ns x)); [ring|]. intros n. apply write_comm; auto; apply strings_length; auto.
Qed.
Lemma names_in l : forall ns n, names l = Some ns -> In n ns -> In (Qubit n) l.
Proof.
  induction l as [|[m|v] l IH]; intros ns n H Hn; cbn [names] in H; try discriminate; [injection H as <-; destruct Hn|]. destruct (names l) as [ms|]; [|discriminate]. cbn in H. injection H as <-. destruct Hn as [->|Hn]; [now left|right; eauto].
Qed.
Lemma gcommute L a b s : gok L s -> wellformed ain aout lin a -> wellformed ain aout lin b -> incl (a_ins a) L -> incl (a_ins b) L -> (forall w, In w (a_outs a) -> ~ In w L) -> (forall w, In w (a_outs b) -> ~ In w L) ->
  independent lin a b -> gsame (gact a (gact b s)) (gact b (gact a s)).
Proof.
  intros O Wa Wb Ia Ib Fa Fb (D1 & D2 & D3 & D4).
  destruct (after_local a (holds_after b (holds s)) (holds s)) as [Ea Pa]; [intros w Hw; apply holds_out; intros H; apply (Fb w H); auto|].
  destruct (after_local b (holds_after a (holds s)) (holds s)) as [Eb Pb]; [intros w Hw; apply holds_out; intros H; apply (Fa w H); auto|].
  split.
  - intros w. cbn [holds gact]. destruct (in_dec source_eq_dec w (a_outs a)) as [Ha|Ha].
    + rewrite (holds_out b) by (intros H; destruct (D1 w Ha); contradiction). unfold holds_after at 1 3. rewrite Ea, Pa. destruct (position w (a_outs a)) eqn:E; auto. apply position_none in E. contradiction.
    + rewrite (holds_out a) by auto. unfold holds_after at 1 2. rewrite Eb, Pb, (holds_out a) by auto. reflexivity.
  - intros c. cbn [amp holds gact]. unfold amp_after. rewrite Ea, Pa, Eb, Pb. destruct (names (map (holds s) (a_linear lin a))) as [ns|] eqn:Na, (names (map (holds s) (a_linear lin b))) as [ms|] eqn:Nb; auto.
    apply gates_commute; [apply amp_ext|]. intros n Hn Hm. apply (names_in _ _ _ Na) in Hn. apply (names_in _ _ _ Nb) in Hm. apply in_map_iff in Hn, Hm. destruct Hn as (u & Qu & Hu), Hm as (v & Qv & Hv).
    assert (u = v) as -> by (apply (O u v n); auto; [apply Ia|apply Ib]; apply linear_sub; auto). apply (D3 v Hu). apply linear_sub. auto.
Qed.
Lemma linear_length a : wellformed ain aout lin a -> length (a_linear lin a) = nlin (a_op a).
Proof.
  intros (Wi & _). unfold a_linear, nlin. rewrite <- Wi, map_length. generalize (a_ins a). intros l. generalize 0. induction l as [|w l IH]; intros b; cbn [length seq combine filter]; auto. cbn [fst]. destruct (lin (a_op a) b); cbn [length]; rewrite IH; auto.
Qed.
Lemma linear_port (q : nat -> bool) (l : list source) : forall b k w, nth_error (map snd (filter (fun x => q (fst x)) (combine (seq b (length l)) l))) k = Some w -> exists m, nth_error l m = Some w /\ q (b + m) = true.
Proof.
  induction l as [|v l IH]; intros b k w H; cbn [length seq combine filter map] in H; [destruct k; discriminate|]. cbn [fst] in H. destruct (q b) eqn:E.
  - destruct k as [|k]; cbn [map snd nth_error] in H; [injection H as <-; exists 0; rewrite Nat.add_0_r; auto|]. destruct (IH _ _ _ H) as (m & H1 & H2). exists (S m). rewrite Nat.add_succ_r. auto.
  - destruct (IH _ _ _ H) as (m & H1 & H2). exists (S m). rewrite Nat.add_succ_r. auto.
Qed.
Lemma gkind_step s a : wellformed ain aout lin a -> (forall k w, nth_error (a_ins a) k = Some w -> gkind s w = lin (a_op a) k) ->
  forall j w, nth_error (a_outs a) j = Some w -> gkind (gact a s) w = lout (a_op a) j.
Proof.
  intros W H j w Hj. unfold gkind. cbn [holds gact]. rewrite (holds_new a _ j w) by (auto; apply W). unfold lout. destruct (qout (a_op a) j) as [k|]; [|reflexivity]. rewrite <- (linear_length a W).
  destruct (nth_error (a_linear lin a) k) as [v|] eqn:E.
  - assert (L : k < length (a_linear lin a)) by (apply nth_error_Some; congruence). rewrite (proj2 (Nat.ltb_lt _ _) L).
    rewrite (nth_error_nth _ _ _ (map_nth_error (holds s) _ _ E)). destruct (linear_port (lin (a_op a)) (a_ins a) 0 k v E) as (m & H1 & H2). rewrite Nat.add_0_l in H2. rewrite <- H2, <- (H m v H1). reflexivity.
  - apply nth_error_None in E. rewrite (proj2 (Nat.ltb_ge _ _) E). rewrite nth_overflow by (rewrite map_length; auto). reflexivity.
Qed.
Lemma glike_trans L M N s t u : length L = length M -> length M = length N -> glike (combine L M) s t -> glike (combine M N) t u -> glike (combine L N) s u.
Proof.
  intros E1 E2 (H1 & D1 & A1) (H2 & D2 & A2).
  assert (X : forall w w'', In (w, w'') (combine L N) -> exists w', In (w, w') (combine L M) /\ In (w', w'') (combine M N)).
  { clear - E1 E2. revert M N E1 E2. induction L as [|x L IH]; intros [|y M] [|z N] E1 E2 w w'' H; cbn in *; try discriminate; try contradiction. destruct H as [[= <- <-]|H]; [eauto|]. injection E1 as E1. injection E2 as E2. destruct (IH M N E1 E2 _ _ H) as (w' & ? & ?). eauto. }
  split; [|split].
  - intros w w'' H. destruct (X _ _ H) as (w' & X1 & X2). rewrite (H1 _ _ X1). auto.
  - intros v v'' w w'' n Hv Hw Q1 Q2. destruct (X _ _ Hv) as (v' & X1 & X2). destruct (X _ _ Hw) as (w' & Y1 & Y2). destruct (D1 _ _ _ _ n X1 Y1 Q1 Q2) as [-> E]. split; auto. apply (D2 v' v'' w' w'' n); auto; [rewrite <- (H1 _ _ X1)|rewrite <- (H1 _ _ Y1)]; auto.
  - intros b. rewrite A1. auto.
Qed.
Definition gates : interp Op ain aout lin lout.
Proof.
  refine {| St := state; act := gact; same := gsame; like := glike; ok := gok; kind := gkind |}.
  - split; auto.
  - intros s t [H1 H2]. split; intros; symmetry; auto.
  - intros s t u [H1 H2] [H3 H4]. split; intros; [rewrite H1|rewrite H2]; auto.
  - apply gact_same.
  - intros C s t s' t' (H1 & H2 & H3) [A1 A2] [B1 B2]. split; [|split].
    + intros w w' H. rewrite <- A1, <- B1. auto.
    + intros u u' w w' n Hu Hw Q1 Q2. rewrite <- A1 in Q1, Q2. eauto.
    + intros b. rewrite <- A2, <- B2. auto.
  - intros C C' s t (H1 & H2 & H3) I. split; [|split]; auto. intros u u' w w' n Hu Hw. apply H2; auto.
  - intros L s O. split; [|split]; auto.
    + intros w w' H. apply in_map_iff in H. destruct H as (v & [= <- <-] & _). auto.
    + intros u u' w w' n Hu Hw Q1 Q2. apply in_map_iff in Hu, Hw. destruct Hu as (v & [= <- <-] & Hv), Hw as (v' & [= <- <-] & Hv'). rewrite (O v v' n); auto.
  - apply glike_trans.
  - apply glike_step.
  - intros C s t (H1 & H2 & H3). split.
    + intros u w n Hu Hw Q1 Q2. apply in_map_iff in Hu, Hw. destruct Hu as ([a b] & <- & Hu), Hw as ([a' b'] & <- & Hw). cbn [fst] in *. apply (H2 a b a' b' n); auto.
    + intros u w n Hu Hw Q1 Q2. apply in_map_iff in Hu, Hw. destruct Hu as ([a b] & <- & Hu), Hw as ([a' b'] & <- & Hw). cbn [snd] in *. apply (H2 a b a' b' n); auto; [rewrite (H1 _ _ Hu)|rewrite (H1 _ _ Hw)]; auto.
  - apply gok_step.
  - intros C s t w w' (H1 & _) H. unfold gkind. rewrite (H1 w w'); auto.
  - apply gkind_step.
  - intros s a w H. unfold gkind. cbn [holds gact]. rewrite holds_out; auto.
  - apply gcommute.
Defined.
End Gates.
