(** Circuits of gates that compute the same: under other names, in every place, and without their empty wires. *)
From Coq Require Import List Bool Arith Lia Ring_theory Permutation Sorted.
From Verif Require Import PatSpec PatModel PatProofs PatRewrite PatInterp EccModel EwModel EwSpec EwProofs.
Import ListNotations.

Section Sim.
Variables ain aout : optype -> nat.
Variable lin : optype -> nat -> bool.
Variable R : Type.
Variables (r0 r1 : R) (radd rmul rsub : R -> R -> R) (ropp : R -> R).
Hypothesis Rth : ring_theory r0 r1 radd rmul rsub ropp eq.
Variable P : Type.
Variables d0 d1 : P.
Hypothesis two_values : d0 <> d1.
Variable matrix : optype -> list P -> list bool -> list bool -> R.
Variable qout : optype -> nat -> option nat.
Variable cout : optype -> list P -> nat -> P.
Hypothesis qout_inj : forall o j j' k, qout o j = Some k -> qout o j' = Some k -> j = j'.
Notation lout := (lout optype ain lin qout).
Notation G := (gates optype ain aout lin R r0 r1 radd rmul rsub ropp Rth P d0 matrix qout cout qout_inj).
Notation circuit := (circuit optype).
Notation gact := (gact optype lin R r0 radd rmul P d0 matrix qout cout).
Notation state := (state R P).
Notation holds := (holds R P).
Notation amp := (amp R P).
Notation grun := (fold_left (fun s a => gact a s)).
Notation Qubit := (Qubit P).
Notation Bits := (Bits P).
Notation outs := (outs aout).
Notation ins := (ins ain).
Notation action_of := (action_of ain aout).

(** ** Renamed runs *)
Definition related (f : source -> source) (K : list source) (s s0 : state) : Prop := (forall w, In w K -> holds s (f w) = holds s0 w) /\ forall b, amp s b = amp s0 b.
Lemma linear_map f (a : action optype) : a_linear lin (rename f a) = map f (a_linear lin a).
Proof.
  unfold a_linear. cbn [rename a_op a_ins]. rewrite map_length. generalize 0. induction (a_ins a) as [|w l IH]; intros b; auto. cbn [length seq map combine filter fst]. destruct (lin (a_op a) b); cbn [map snd]; rewrite IH; auto.
Qed.
Lemma params_map f (a : action optype) : a_params optype lin (rename f a) = map f (a_params optype lin a).
Proof.
  unfold a_params. cbn [rename a_op a_ins]. rewrite map_length. generalize 0. induction (a_ins a) as [|w l IH]; intros b; auto. cbn [length seq map combine filter fst]. destruct (lin (a_op a) b); cbn [map snd negb]; rewrite IH; auto.
Qed.
Lemma position_map f v l : (forall w, In w l -> f w = f v -> w = v) -> position (f v) (map f l) = position v l.
Proof.
  induction l as [|w l IH]; intros H; auto. cbn [map position]. rewrite IH by (intros; apply H; auto; now right). destruct (source_eq_dec v w) as [->|N].
  - destruct (source_eq_dec (f w) (f w)); congruence.
  - destruct (source_eq_dec (f v) (f w)) as [E|]; auto. exfalso. apply N. symmetry. apply H; [now left|auto].
Qed.
Lemma related_step f K s s0 (c : circuit) x : related f K s s0 -> incl (ins c x) K -> (forall w v, In w (outs x) -> In v (K ++ outs x) -> f w = f v -> w = v) ->
  related f (K ++ outs x) (gact (rename f (action_of c x)) s) (gact (action_of c x) s0).
Proof.
  intros [H A] Hi Inj. set (a := action_of c x).
  assert (El : map (holds s) (a_linear lin (rename f a)) = map (holds s0) (a_linear lin a)). { rewrite linear_map, map_map. apply map_ext_in. intros w Hw. apply H, Hi. apply linear_sub in Hw. auto. }
  assert (Ep : params optype lin P d0 (rename f a) (holds s) = params optype lin P d0 a (holds s0)). { unfold params. rewrite params_map, map_map. apply map_ext_in. intros w Hw. rewrite H; auto. apply Hi. apply params_sub in Hw. auto. }
  split.
  - intros w Hw. cbn [PatInterp.holds PatInterp.gact]. unfold holds_after. cbn [rename a_outs a_op]. rewrite position_map by (intros; apply Inj; auto). rewrite El, Ep. destruct (position w (a_outs a)) as [j|] eqn:Ej; auto.
    apply in_app_or in Hw. destruct Hw as [Hw|Hw]; auto. exfalso. apply in_split in Hw. destruct Hw as (l1 & l2 & E). assert (In w (outs x)) by (rewrite E; apply in_or_app; right; now left).
    apply In_nth_error in H0. destruct H0 as (j & Hj). assert (N := PatProofs.outs_ok _ aout x). rewrite (position_nth w (a_outs a) j) in Ej; [discriminate|apply N|exact Hj].
  - intros b. cbn [PatInterp.amp PatInterp.gact]. unfold amp_after. rewrite El, Ep. cbn [rename a_op]. destruct (names P _); auto. apply apply_psi. auto.
Qed.
Lemma related_run f (c : circuit) l : forall K s s0, related f K s s0 ->
  (forall a x b, l = a ++ x :: b -> forall w, In w (ins c x) -> In w (K ++ flat_map outs a)) ->
  (forall x w v, In x l -> In w (outs x) -> In v (K ++ flat_map outs l) -> f w = f v -> w = v) ->
  related f (K ++ flat_map outs l) (grun (map (fun x => rename f (action_of c x)) l) s) (grun (map (action_of c) l) s0).
Proof.
  induction l as [|x l IH]; intros K s s0 H Ho Inj; cbn [map fold_left flat_map]; [rewrite app_nil_r; auto|].
  rewrite app_assoc. apply IH.
  - apply related_step; auto.
    + intros w Hw. specialize (Ho [] x l eq_refl w Hw). cbn in Ho. rewrite app_nil_r in Ho. auto.
    + intros w v Hw Hv. apply (Inj x); [now left|auto|]. apply in_app_or in Hv. apply in_or_app. destruct Hv; auto. right. apply in_or_app. auto.
  - intros a y b E w Hw. specialize (Ho (x :: a) y b (f_equal (cons x) E) w Hw). cbn [flat_map] in Ho. rewrite app_assoc in Ho. auto.
  - intros y w v Hy Hw Hv. apply (Inj y); [now right|auto|]. cbn [flat_map]. rewrite app_assoc. auto.
Qed.
Lemma untouched (acts : list (action optype)) w : forall s, (forall a, In a acts -> ~ In w (a_outs a)) -> holds (grun acts s) w = holds s w.
Proof. induction acts as [|a acts IH]; intros s H; cbn [fold_left]; auto. rewrite IH by (intros; apply H; now right). cbn [PatInterp.holds PatInterp.gact]. apply holds_out. apply H. now left. Qed.
(** Qubits are those of the inputs. *)
Lemma origin (c : circuit) l : forall K s w n, (forall a x b, l = a ++ x :: b -> forall w, In w (ins c x) -> In w (K ++ flat_map outs a)) ->
  In w (K ++ flat_map outs l) -> holds (grun (map (action_of c) l) s) w = Qubit n -> exists v, In v K /\ holds s v = Qubit n.
Proof.
  induction l as [|x l IH]; intros K s w n Ho Hw H; cbn [map fold_left flat_map] in *; [rewrite app_nil_r in Hw; eauto|].
  destruct (IH (K ++ outs x) (gact (action_of c x) s) w n) as (v & Hv & Q).
  - intros a y b E u Hu. specialize (Ho (x :: a) y b (f_equal (cons x) E) u Hu). cbn [flat_map] in Ho. rewrite app_assoc in Ho. auto.
  - rewrite <- app_assoc. auto.
  - auto.
  - cbn [PatInterp.holds PatInterp.gact] in Q. destruct (in_dec source_eq_dec v (outs x)) as [Hin|Hn].
    + apply In_nth_error in Hin. destruct Hin as (j & Hj). apply (new_qubit optype lin P d0 qout cout (action_of c x) (holds s) j v n) in Q; auto; [|apply (PatProofs.outs_ok _ aout x)].
      destruct Q as (k & u & _ & Hu & Q). apply nth_error_In, linear_sub in Hu. exists u. split; auto. specialize (Ho [] x l eq_refl u Hu). cbn in Ho. rewrite app_nil_r in Ho. auto.
    + rewrite holds_out in Q by auto. exists v. split; auto. apply in_app_or in Hv. destruct Hv; [auto|contradiction].
Qed.
Lemma known_in (c : circuit) a w : known aout c a w <-> In w (map Inp (seq 0 (c_inputs c)) ++ flat_map outs a).
Proof.
  unfold known. rewrite in_app_iff, in_map_iff, in_flat_map. split; (intros [H|H]; [left|right]); auto.
  - destruct H as (k & -> & Hk). exists k. split; auto. apply in_seq. lia.
  - destruct H as (k & <- & Hk). apply in_seq in Hk. exists k. split; auto. lia.
Qed.
Lemma known_split (c : circuit) a w : known aout c a w -> (exists k, w = Inp k /\ k < c_inputs c) \/ exists n j, w = Out n j /\ In n (map fst a).
Proof.
  intros [H|(x & Hx & Hw)]; [left; auto|right]. apply (out_id _ aout) in Hw. destruct Hw as (j & ->). exists (fst x), j. split; auto. apply in_map. auto.
Qed.

(** ** In every place *)
Definition load (n : nat) (f : source -> source) (s : state) : state :=
  {| PatInterp.holds := fun w => match w with Inp k => if k <? n then holds s (f w) else Bits d0 | Out _ _ => Bits d0 end; PatInterp.amp := amp s; PatInterp.amp_ext := amp_ext R P s |}.
Lemma load_input n f s k : k < n -> holds (load n f s) (Inp k) = holds s (f (Inp k)).
Proof. intros H. cbn [load PatInterp.holds]. destruct (Nat.ltb_spec k n); [auto|lia]. Qed.
Lemma load_related n f s : related f (map Inp (seq 0 n)) s (load n f s).
Proof.
  split; auto. intros w Hw. apply in_map_iff in Hw. destruct Hw as (k & <- & Hk). apply in_seq in Hk. symmetry. apply load_input. lia.
Qed.
Lemma placed_run (c : circuit) l f (F : list source) s : schedule ain aout lin c l -> (forall k, k < c_inputs c -> In (f (Inp k)) F) ->
  (forall x w, In x l -> In w (outs x) -> ~ In (f w) F) -> (forall n j n' j', f (Out n j) = f (Out n' j') -> In n (map fst l) -> In n' (map fst l) -> n = n' /\ j = j') ->
  related f (map Inp (seq 0 (c_inputs c)) ++ flat_map outs l) (grun (map (fun x => rename f (action_of c x)) l) s) (grun (map (action_of c) l) (load (c_inputs c) f s)).
Proof.
  intros Hl Hf Ff If. apply related_run.
  - apply load_related.
  - intros a x b E w Hw. apply known_in. apply (v_order Hl a x b E); auto.
  - intros x w v Hx Hw Hv E. apply known_in in Hv. destruct (known_split c l v Hv) as [(k & -> & Hk)|(n & j & -> & Hn)].
    + exfalso. apply (Ff x w Hx Hw). rewrite E. auto.
    + apply (out_id _ aout) in Hw. destruct Hw as (j' & ->). destruct (If _ _ _ _ E) as [-> ->]; auto. apply in_map. auto.
Qed.
Lemma rename_outs f (c : circuit) l a w : In a (map (fun x => rename f (action_of c x)) l) -> In w (a_outs a) -> exists x v, In x l /\ In v (outs x) /\ w = f v.
Proof. intros Ha Hw. apply in_map_iff in Ha. destruct Ha as (x & <- & Hx). cbn [rename a_outs PatSpec.action_of] in Hw. apply in_map_iff in Hw. destruct Hw as (v & <- & Hv). eauto. Qed.
Lemma in_combine_map {A B C D} (f : A -> C) (g : B -> D) l m u v : In (u, v) (combine (map f l) (map g m)) -> exists a b, In (a, b) (combine l m) /\ u = f a /\ v = g b.
Proof. revert m. induction l as [|a l IH]; intros [|b m] H; cbn in *; try contradiction. destruct H as [[= <- <-]|H]; [eauto 6|]. destruct (IH m H) as (a' & b' & ? & ? & ?). eauto 6. Qed.
Lemma everywhere (c d : circuit) fi : (forall k, k < c_inputs c -> nth k fi false = true -> exists x, In x (c_nodes c) /\ In (Inp k) (linear_ins ain lin c x)) ->
  equivalent G fi c d -> interchangeable G fi c d.
Proof.
  intros Hc (En & Eo & Eq). split; auto. split; auto. intros l m f g C s t Hl Hm L Cin Ti Inj Ff Fg If Ig.
  assert (Cf : forall k, k < c_inputs c -> In (f (Inp k)) (map fst C)) by (intros k Hk; apply in_map_iff; exists (f (Inp k), g (Inp k)); auto).
  assert (Cg : forall k, k < c_inputs d -> In (g (Inp k)) (map snd C)) by (intros k Hk; apply in_map_iff; exists (f (Inp k), g (Inp k)); split; auto; apply Cin; lia).
  destruct (placed_run c l f (map fst C) s Hl Cf Ff If) as [Rc Ac]. destruct (placed_run d m g (map snd C) t Hm Cg Fg Ig) as [Rd Ad].
  set (s0 := load (c_inputs c) f s) in *. set (t0 := load (c_inputs d) g t) in *.
  destruct L as (L1 & L2 & L3).
  assert (L0 : glike R P (map (fun k => (Inp k, Inp k)) (seq 0 (c_inputs c))) s0 t0).
  { split; [|split].
    - intros w w' H. apply in_map_iff in H. destruct H as (k & [= <- <-] & Hk). apply in_seq in Hk. unfold s0, t0. rewrite !load_input by lia. apply L1. apply Cin. lia.
    - intros u u' w w' n Hu Hw Q1 Q2. apply in_map_iff in Hu, Hw. destruct Hu as (k & [= <- <-] & Hk), Hw as (k' & [= <- <-] & Hk'). apply in_seq in Hk, Hk'. unfold s0 in Q1, Q2. rewrite load_input in Q1, Q2 by lia.
      destruct (L2 (f (Inp k)) (g (Inp k)) (f (Inp k')) (g (Inp k')) n) as [E1 E2]; auto; try (apply Cin; lia).
      assert (k = k') as ->; auto. apply Inj; auto; try lia. rewrite <- (Ti k) by lia. cbn. unfold gkind. rewrite Q1. reflexivity.
    - exact L3. }
  assert (Ti0 : typed_inputs G fi c (fun w => w) s0). { intros k Hk. rewrite <- (Ti k Hk). cbn [kind gates]. unfold gkind, s0. rewrite load_input by auto. auto. }
  destruct (Eq l m s0 t0 Hl Hm L0 Ti0) as (M1 & M2 & M3). clear Eq.
  assert (Oc : forall w, In w (c_outs c) -> In w (map Inp (seq 0 (c_inputs c)) ++ flat_map outs l)) by (intros w Hw; apply known_in; apply (v_outs Hl); auto).
  assert (Od : forall w, In w (c_outs d) -> In w (map Inp (seq 0 (c_inputs d)) ++ flat_map outs m)) by (intros w Hw; apply known_in; apply (v_outs Hm); auto).
  assert (Uc : forall w, In w (map fst C) -> holds (grun (map (fun x => rename f (action_of c x)) l) s) w = holds s w).
  { intros w Hw. apply untouched. intros a Ha Ho. destruct (rename_outs _ _ _ _ _ Ha Ho) as (x & v & Hx & Hv & ->). apply (Ff x v); auto. }
  assert (Ud : forall w, In w (map snd C) -> holds (grun (map (fun x => rename g (action_of d x)) m) t) w = holds t w).
  { intros w Hw. apply untouched. intros a Ha Ho. destruct (rename_outs _ _ _ _ _ Ha Ho) as (x & v & Hx & Hv & ->). apply (Fg x v); auto. }
  assert (X : forall u u' a n, In (u, u') (without (map f (linear_inputs ain lin c l)) C) -> In a (c_outs c) ->
    holds (grun (map (fun x => rename f (action_of c x)) l) s) u = Qubit n -> holds (grun (map (fun x => rename f (action_of c x)) l) s) (f a) = Qubit n -> False).
  { intros u u' a n Hu Ha Q1 Q2. apply (without_in (map f (linear_inputs ain lin c l)) C (u, u')) in Hu. destruct Hu as [Hu Nu]. cbn [fst] in Nu.
    rewrite Uc in Q1 by (apply in_map_iff; exists (u, u'); auto). rewrite Rc in Q2 by auto.
    apply (origin c l (map Inp (seq 0 (c_inputs c)))) in Q2; [|intros a0 x b E w Hw; apply known_in; apply (v_order Hl a0 x b E); auto|auto].
    destruct Q2 as (v & Hv & Q2). apply in_map_iff in Hv. destruct Hv as (k & <- & Hk). apply in_seq in Hk. assert (Hk' : k < c_inputs c) by lia. unfold s0 in Q2. rewrite load_input in Q2 by auto.
    destruct (L2 u u' (f (Inp k)) (g (Inp k)) n) as [-> _]; auto. apply Nu. apply in_map. unfold linear_inputs. apply filter_In. split; auto. apply in_flat_map.
    destruct (Hc k) as (x & Hx & Hi); [auto| |exists x; split; auto; eapply Permutation_in; [apply (v_perm Hl)|auto]]. rewrite <- (Ti k) by auto. cbn. unfold gkind. rewrite Q2. reflexivity. }
  split; [|split].
  - intros w w' H. apply in_app_or in H. destruct H as [H|H].
    + apply (without_in (map f (linear_inputs ain lin c l)) C (w, w')) in H. destruct H as [H _]. cbn. rewrite Uc, Ud; auto; apply in_map_iff; exists (w, w'); auto.
    + apply in_combine_map in H. destruct H as (a & b & H & -> & ->). cbn. rewrite Rc, Rd; [|apply Od; apply in_combine_r in H; auto|apply Oc; apply in_combine_l in H; auto]. apply M1. auto.
  - intros u u' w w' n Hu Hw Q1 Q2. apply in_app_or in Hu, Hw. destruct Hu as [Hu|Hu], Hw as [Hw|Hw].
    + apply (without_in (map f (linear_inputs ain lin c l)) C (u, u')) in Hu. apply (without_in (map f (linear_inputs ain lin c l)) C (w, w')) in Hw. destruct Hu as [Hu _], Hw as [Hw _].
      assert (Iu : In u (map fst C)) by (apply in_map_iff; exists (u, u'); auto). assert (Iw : In w (map fst C)) by (apply in_map_iff; exists (w, w'); auto).
      unfold run in Q1, Q2. cbn [act gates] in Q1, Q2. rewrite Uc in Q1, Q2 by auto. eauto.
    + exfalso. apply in_combine_map in Hw. destruct Hw as (a & b & H & -> & ->). apply (X u u' a n); auto. apply in_combine_l in H. auto.
    + exfalso. apply in_combine_map in Hu. destruct Hu as (a & b & H & -> & ->). apply (X w w' a n); auto. apply in_combine_l in H. auto.
    + apply in_combine_map in Hu, Hw. destruct Hu as (a & b & H & -> & ->), Hw as (a' & b' & H' & -> & ->). cbn in Q1, Q2.
      rewrite Rc in Q1 by (apply Oc; apply in_combine_l in H; auto). rewrite Rc in Q2 by (apply Oc; apply in_combine_l in H'; auto). destruct (M2 a b a' b' n) as [-> ->]; auto.
  - intros b. cbn. rewrite Ac, Ad. apply M3.
Qed.
End Sim.
