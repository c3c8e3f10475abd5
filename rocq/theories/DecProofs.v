(** Proofs about the pytket decoder: the invariant of the tracker. *)
From Coq Require Import List Bool Arith Lia.
From Verif Require Import EncSpec DecSpec DecModel.
Import ListNotations.

(** ** Lists *)
Lemma get_in l r id : NoDup (map fst l) -> (get r l = Some id <-> In (r, id) l).
Proof.
  induction l as [|[r' i] l IH]; simpl; intros N; [split; [discriminate|tauto]|]. inversion N as [|a b Na Nl]; subst.
  destruct (Nat.eqb_spec r' r) as [->|Ne].
  - split; [intros [= ->]; auto|]. intros [[= <-]|I]; auto. exfalso. apply Na. apply in_map_iff. exists (r, id); auto.
  - rewrite IH by assumption. split; auto. intros [[= E _]|I]; auto; congruence.
Qed.
Lemma get_none l r : get r l = None <-> ~ In r (map fst l).
Proof.
  induction l as [|[r' i] l IH]; simpl; [tauto|]. destruct (Nat.eqb_spec r' r) as [->|Ne].
  - split; [discriminate|tauto].
  - rewrite IH. tauto.
Qed.
Lemma get_insert l r id r' : get r' (insert r id l) = if Nat.eqb r' r then Some id else get r' l.
Proof.
  induction l as [|[r0 i] l IH]; simpl.
  - rewrite (Nat.eqb_sym r r'). destruct (Nat.eqb r' r); reflexivity.
  - destruct (Nat.eqb_spec r0 r) as [->|Ne]; simpl.
    + rewrite (Nat.eqb_sym r r'). destruct (Nat.eqb r' r); auto.
    + destruct (Nat.eqb_spec r0 r') as [X|]; [|exact IH]. subst r'. destruct (Nat.eqb_spec r0 r); [congruence|reflexivity].
Qed.
Lemma keys_insert l r id : map fst (insert r id l) = if mem r (map fst l) then map fst l else map fst l ++ [r].
Proof.
  induction l as [|[r0 i] l IH]; simpl; [reflexivity|]. rewrite (Nat.eqb_sym r r0).
  destruct (Nat.eqb_spec r0 r) as [->|Ne]; simpl; [reflexivity|]. rewrite IH. unfold mem. destruct (existsb (Nat.eqb r) (map fst l)); reflexivity.
Qed.
Lemma mem_in i l : mem i l = true <-> In i l.
Proof. unfold mem. rewrite existsb_exists. split; [intros [x [I E]]; apply Nat.eqb_eq in E; subst; auto|intros I; exists i; rewrite Nat.eqb_refl; auto]. Qed.
Lemma mem_not_in i l : mem i l = false <-> ~ In i l.
Proof. rewrite <- mem_in. destruct (mem i l); intuition congruence. Qed.
Lemma nodup_snoc {A} (l : list A) a : NoDup l -> ~ In a l -> NoDup (l ++ [a]).
Proof.
  induction l as [|x l IH]; simpl; intros N I; [constructor; auto; constructor|]. inversion N; subst. constructor.
  - rewrite in_app_iff. simpl. intuition congruence.
  - apply IH; tauto.
Qed.
Lemma nodup_insert l r id : NoDup (map fst l) -> NoDup (map fst (insert r id l)).
Proof.
  intros N. rewrite keys_insert. destruct (mem r (map fst l)) eqn:M; auto. apply nodup_snoc; auto. apply mem_not_in; auto.
Qed.
Lemma in_insert l r id r' id' : NoDup (map fst l) -> (In (r', id') (insert r id l) <-> (r' = r /\ id' = id) \/ (r' <> r /\ In (r', id') l)).
Proof.
  intros N. rewrite <- (get_in _ r' id') by (apply nodup_insert; auto). rewrite get_insert. destruct (Nat.eqb_spec r' r) as [->|Ne].
  - split; [intros [= ->]; auto|intros [[_ ->]|[? _]]; congruence].
  - rewrite get_in by auto. intuition.
Qed.
Lemma length_mark i l : length (mark i l) = length l.
Proof. revert i. induction l as [|x l IH]; intros [|i]; simpl; auto. Qed.
Lemma nth_mark i l j : nth_error (mark i l) j = if Nat.eqb j i then option_map (fun x => {| e_reg := e_reg x; e_old := true |}) (nth_error l j) else nth_error l j.
Proof.
  revert i j. induction l as [|x l IH]; intros i j.
  - destruct i, j; simpl; auto; destruct (Nat.eqb _ _); reflexivity.
  - destruct i, j; simpl; auto.
Qed.
Lemma mark_reg i l j x : nth_error (mark i l) j = Some x -> exists y, nth_error l j = Some y /\ e_reg y = e_reg x /\ (e_old x = false -> e_old y = false).
Proof.
  rewrite nth_mark. destruct (Nat.eqb j i); [|eauto]. destruct (nth_error l j) as [y|]; simpl; [|discriminate]. intros [= <-]. exists y; simpl. repeat split; congruence.
Qed.
Lemma mark_reg' i l j y : nth_error l j = Some y -> exists x, nth_error (mark i l) j = Some x /\ e_reg x = e_reg y.
Proof. intros E. rewrite nth_mark. destruct (Nat.eqb j i); [rewrite E; simpl; eauto|eauto]. Qed.

Definition other (k : kind) : kind := match k with Qb => Bt | Bt => Qb end.
Definition fits (t : ty) (k : kind) : Prop := match k with Qb => t = TQ | Bt => t = TB \/ t = TT end.
Lemma kind_eqb_refl k : kind_eqb k k = true. Proof. destruct k; reflexivity. Qed.
Lemma kind_eqb_ne k k' : k <> k' -> kind_eqb k k' = false. Proof. destruct k, k'; simpl; congruence. Qed.
Lemma kind_cases (k k' : kind) : k' = k \/ k' = other k. Proof. destruct k, k'; auto. Qed.
Lemma other_ne k : other k <> k. Proof. destruct k; discriminate. Qed.
Lemma upd_same {A} (f : kind -> A) k a : upd f k a k = a. Proof. unfold upd. rewrite kind_eqb_refl. reflexivity. Qed.
Lemma upd_other {A} (f : kind -> A) k a : upd f k a (other k) = f (other k). Proof. destruct k; reflexivity. Qed.

Section Dec.
Variables Op E V P : Type.
Variables (zero one : V) (run : Op -> list V -> list V -> list P -> list V * list V) (prun : Op -> list P -> list P) (den : E -> P).
Notation state := (state Op E).
Notation env := (env V P).
Notation val := (val V P).
Notation regs := (DecSpec.regs V).
Notation meaning := (meaning Op E V P zero one run prun den).
Notation node_values := (node_values Op E V P zero one run prun den).

Definition single (k : kind) (v : V) : val := match k with Qb => {| vq := [v]; vb := []; vp := [] |} | Bt => {| vq := []; vb := [v]; vp := [] |} end.
Definition ids_of (k : kind) (id : nat) : kind -> list nat := fun k' => if kind_eqb k' k then [id] else [].
Definition shape (st : state) (d : wdata) : Prop :=
  (exists k id, w_ids d k = [id] /\ w_ids d (other k) = [] /\ fits (w_ty d) k /\ id < length (s_elems st k)) \/ (forall k, w_ids d k = []).
Record Inv (st : state) (e : env) (R : regs) : Prop := {
  i_nodup : forall k, NoDup (map fst (s_latest st k));
  i_elem : forall k r id, In (r, id) (s_latest st k) -> exists x, nth_error (s_elems st k) id = Some x /\ e_reg x = r;
  i_shape : forall w d, In (w, d) (s_wires st) -> w < s_next st /\ shape st d;
  i_keys : NoDup (map fst (s_wires st));
  i_uniq : forall k id w d w' d', In (w, d) (s_wires st) -> In (w', d') (s_wires st) -> In id (w_ids d k) -> In id (w_ids d' k) -> w = w';
  i_val : forall k r id x, In (r, id) (s_latest st k) -> nth_error (s_elems st k) id = Some x -> e_old x = false ->
    (exists w d, In (w, d) (s_wires st) /\ w_ids d k = [id] /\ look e w = Some (single k (R k r))) \/
    ((forall w d, In (w, d) (s_wires st) -> ~ In id (w_ids d k)) /\ R k r = zero) }.

Lemma inv_ext st e R R' : (forall k r, R k r = R' k r) -> Inv st e R -> Inv st e R'.
Proof.
  intros H [A B C D F G]. constructor; auto. intros k r id x I N O. rewrite <- !H. eauto.
Qed.
Lemma inv_env st e e' R : (forall w, w < s_next st -> look e' w = look e w) -> Inv st e R -> Inv st e' R.
Proof.
  intros H [A B C D F G]. constructor; auto. intros k r id x I N O. destruct (G k r id x I N O) as [[w [d [X [Y Z]]]]|]; auto.
  left. exists w, d. rewrite H; auto. apply C in X. tauto.
Qed.

(** ** Marking *)
Lemma inv_mark st e R k id : Inv st e R -> Inv (mark_outdated st k id) e R.
Proof.
  intros [A B C D F G]. constructor; auto; simpl.
  - intros k' r i I. destruct (B k' r i I) as [x [X Y]]. destruct (kind_cases k k') as [->| ->]; [rewrite upd_same|rewrite upd_other; eauto].
    destruct (mark_reg' id _ _ _ X) as [y [Y1 Y2]]. exists y. split; auto. congruence.
  - intros w d I. destruct (C w d I) as [L [(k' & i & X)|X]]; split; auto; [left|right; auto]. exists k', i. simpl.
    destruct (kind_cases k k') as [->| ->]; [rewrite upd_same, length_mark; tauto|rewrite upd_other; tauto].
  - intros k' r i x I X O. destruct (kind_cases k k') as [->| ->]; [rewrite upd_same in X|rewrite upd_other in X; eauto].
    apply mark_reg in X as [y [Y1 [Y2 Y3]]]. eauto.
Qed.
Lemma tracked_mark (st : state) k id k' r : (forall x, nth_error (s_elems st k) id = Some x -> k' = k -> e_reg x <> r) ->
  (forall k r id, In (r, id) (s_latest st k) -> exists x, nth_error (s_elems st k) id = Some x /\ e_reg x = r) -> (forall k, NoDup (map fst (s_latest st k))) ->
  tracked (mark_outdated st k id) k' r = tracked st k' r.
Proof.
  intros H B N. unfold tracked. simpl. destruct (get r (s_latest st k')) as [i|] eqn:G; auto.
  destruct (kind_cases k k') as [->| ->]; [rewrite upd_same|rewrite upd_other; auto]. rewrite nth_mark. destruct (Nat.eqb_spec i id) as [->|]; auto.
  apply get_in in G; auto. destruct (B _ _ _ G) as [x [X Y]]. exfalso. exact (H x X eq_refl Y).
Qed.

(** ** A new wire for a register *)
Definition track_one (st : state) (k : kind) (w : wire) (t : ty) (r : nat) : state := match k with Qb => track_wire st w t [r] [] | Bt => track_wire st w t [] [r] end.
Definition elems' (st : state) (k : kind) (r : nat) : list elem :=
  match get r (s_latest st k) with Some i => mark i (s_elems st k ++ [{| e_reg := r; e_old := false |}]) | None => s_elems st k ++ [{| e_reg := r; e_old := false |}] end.
Lemma track_one_fields st k w t r :
  s_nodes (track_one st k w t r) = s_nodes st /\ s_next (track_one st k w t r) = s_next st /\
  (exists d, s_wires (track_one st k w t r) = s_wires st ++ [(w, d)] /\ w_ty d = t /\ w_ids d k = [length (s_elems st k)] /\ w_ids d (other k) = []) /\
  s_elems (track_one st k w t r) = upd (s_elems st) k (elems' st k r) /\
  s_latest (track_one st k w t r) = upd (s_latest st) k (insert r (length (s_elems st k)) (s_latest st k)).
Proof.
  destruct k; simpl; repeat split; eexists; (split; [reflexivity|]); simpl; auto.
Qed.
Lemma length_elems' st k r : length (elems' st k r) = S (length (s_elems st k)).
Proof. unfold elems'. destruct (get r (s_latest st k)); rewrite ?length_mark, app_length; simpl; lia. Qed.
Lemma elems'_new st e R k r : Inv st e R -> nth_error (elems' st k r) (length (s_elems st k)) = Some {| e_reg := r; e_old := false |}.
Proof.
  intros I. assert (X : nth_error (s_elems st k ++ [{| e_reg := r; e_old := false |}]) (length (s_elems st k)) = Some {| e_reg := r; e_old := false |}).
  { rewrite nth_error_app2 by lia. rewrite Nat.sub_diag. reflexivity. }
  unfold elems'. destruct (get r (s_latest st k)) as [i|] eqn:G; auto. rewrite nth_mark. apply get_in in G; [|apply I].
  destruct (i_elem _ _ _ I _ _ _ G) as [x [Y _]]. assert (i < length (s_elems st k)) by (apply nth_error_Some; congruence).
  destruct (Nat.eqb_spec (length (s_elems st k)) i); [lia|exact X].
Qed.
Lemma elems'_old st k r j x : j < length (s_elems st k) -> nth_error (elems' st k r) j = Some x ->
  exists y, nth_error (s_elems st k) j = Some y /\ e_reg y = e_reg x /\ (e_old x = false -> e_old y = false).
Proof.
  intros L. unfold elems'. destruct (get r (s_latest st k)).
  - intros X. apply mark_reg in X as [y [X Y]]. rewrite nth_error_app1 in X by auto. eauto.
  - rewrite nth_error_app1 by auto. eauto.
Qed.
Lemma elems'_old' st k r j y : nth_error (s_elems st k) j = Some y -> exists x, nth_error (elems' st k r) j = Some x /\ e_reg x = e_reg y.
Proof.
  intros X. assert (L : j < length (s_elems st k)) by (apply nth_error_Some; congruence). unfold elems'.
  assert (X' : nth_error (s_elems st k ++ [{| e_reg := r; e_old := false |}]) j = Some y) by (rewrite nth_error_app1; auto).
  destruct (get r (s_latest st k)); eauto. apply mark_reg'; auto.
Qed.
Lemma elems'_other st e R k r r' j : Inv st e R -> In (r', j) (s_latest st k) -> r' <> r -> nth_error (elems' st k r) j = nth_error (s_elems st k) j.
Proof.
  intros I L Ne. destruct (i_elem _ _ _ I _ _ _ L) as [x [X Y]]. assert (J : j < length (s_elems st k)) by (apply nth_error_Some; congruence).
  unfold elems'. destruct (get r (s_latest st k)) as [i|] eqn:G; [|rewrite nth_error_app1; auto].
  rewrite nth_mark. destruct (Nat.eqb_spec j i) as [->|]; [|rewrite nth_error_app1; auto].
  apply get_in in G; [|apply I]. destruct (i_elem _ _ _ I _ _ _ G) as [y [Y1 Y2]]. congruence.
Qed.
Lemma inv_elems_shape st st' d : (forall k, length (s_elems st k) <= length (s_elems st' k)) -> shape st d -> shape st' d.
Proof. intros L [(k & i & A & B & C & D)|H]; [left|right; auto]. exists k, i. repeat split; auto. specialize (L k). lia. Qed.

(** The first part of the invariant does not depend on values. *)
Lemma track_frame st e R k r k' r' : Inv st e R -> (k', r') <> (k, r) -> forall st' : state, s_elems st' = upd (s_elems st) k (elems' st k r) -> s_latest st' = upd (s_latest st) k (insert r (length (s_elems st k)) (s_latest st k)) ->
  tracked st' k' r' = tracked st k' r'.
Proof.
  intros I Ne st' He Hl. unfold tracked. rewrite He, Hl. destruct (kind_cases k k') as [->| ->]; [rewrite !upd_same|rewrite !upd_other; reflexivity].
  assert (r' <> r) by congruence. rewrite get_insert. destruct (Nat.eqb_spec r' r); [congruence|].
  destruct (get r' (s_latest st k)) as [i|] eqn:G; auto. apply get_in in G; [|apply I]. erewrite elems'_other; eauto.
Qed.
Lemma inv_track_one st e R k w t r v : Inv st e R -> w < s_next st -> ~ In w (map fst (s_wires st)) -> fits t k -> look e w = Some (single k v) ->
  Inv (track_one st k w t r) e (put_reg R k r v).
Proof.
  intros I Lw Nw Ft Lk. destruct (track_one_fields st k w t r) as (F1 & F2 & (d & F3 & Fd & Fi & Fo) & F4 & F5).
  pose proof I as [A B C D F G].
  assert (Len : forall k', length (s_elems st k') <= length (s_elems (track_one st k w t r) k')).
  { intros k'. rewrite F4. destruct (kind_cases k k') as [->| ->]; [rewrite upd_same, length_elems'; lia|rewrite upd_other; lia]. }
  assert (Bound : forall k' id w' d', In (w', d') (s_wires st) -> In id (w_ids d' k') -> id < length (s_elems st k')).
  { intros k' id w' d' X Y. destruct (C w' d' X) as [_ [(k0 & i0 & Q1 & Q2 & _ & Q3)|Q]]; [|rewrite Q in Y; destruct Y].
    destruct (kind_cases k0 k') as [->| ->]; [rewrite Q1 in Y; destruct Y as [<-|[]]; auto|rewrite Q2 in Y; destruct Y]. }
  constructor.
  - intros k'. rewrite F5. destruct (kind_cases k k') as [->| ->]; [rewrite upd_same; apply nodup_insert; auto|rewrite upd_other; auto].
  - intros k' r' id. rewrite F4, F5. destruct (kind_cases k k') as [->| ->]; [rewrite !upd_same|rewrite !upd_other; auto].
    rewrite in_insert by auto. intros [[-> ->]|[Ne L]].
    + rewrite (elems'_new _ _ _ _ _ I). eexists; split; reflexivity.
    + destruct (B _ _ _ L) as [x [X Y]]. destruct (elems'_old' st k r _ _ X) as [y [Y1 Y2]]. exists y. split; auto. congruence.
  - intros w' d'. rewrite F3, in_app_iff, F2. intros [X|[[= <- <-]|[]]].
    + destruct (C _ _ X). split; auto. eapply inv_elems_shape; eauto.
    + split; auto. left. exists k, (length (s_elems st k)). rewrite F4, upd_same, length_elems'. repeat split; auto. destruct k; simpl in *; subst; auto.
  - rewrite F3, map_app. simpl. apply nodup_snoc; auto.
  - intros k' id w1 d1 w2 d2. rewrite F3, !in_app_iff. intros [X|[[= <- <-]|[]]] [Y|[[= <- <-]|[]]] P1 P2; auto; try (eapply F; eauto; fail).
    + destruct (kind_cases k k') as [->| ->]; [rewrite Fi in P2; destruct P2 as [<-|[]]; pose proof (Bound _ _ _ _ X P1); lia|rewrite Fo in P2; destruct P2].
    + destruct (kind_cases k k') as [->| ->]; [rewrite Fi in P1; destruct P1 as [<-|[]]; pose proof (Bound _ _ _ _ Y P2); lia|rewrite Fo in P1; destruct P1].
  - intros k' r' id x. rewrite F4, F5, F3. unfold put_reg. destruct (kind_cases k k') as [->| ->].
    + rewrite !upd_same, kind_eqb_refl, in_insert by auto. simpl. intros [[-> ->]|[Ne L]] X O.
      * rewrite Nat.eqb_refl. left. exists w, d. rewrite in_app_iff. simpl. auto.
      * destruct (Nat.eqb_spec r' r); [congruence|]. erewrite elems'_other in X by eauto.
        destruct (G _ _ _ _ L X O) as [[w' [d' [Y1 [Y2 Y3]]]]|[Y1 Y2]].
        -- left. exists w', d'. rewrite in_app_iff. auto.
        -- right. split; auto. intros w' d'. rewrite in_app_iff. intros [Z|[[= <- <-]|[]]]; eauto. rewrite Fi. intros [<-|[]].
           assert (length (s_elems st k) < length (s_elems st k)) by (apply nth_error_Some; congruence). lia.
    + rewrite !upd_other. rewrite (kind_eqb_ne (other k) k) by apply other_ne. simpl. intros L X O.
      destruct (G _ _ _ _ L X O) as [[w' [d' [Y1 [Y2 Y3]]]]|[Y1 Y2]].
      * left. exists w', d'. rewrite in_app_iff. auto.
      * right. split; auto. intros w' d'. rewrite in_app_iff. intros [Z|[[= <- <-]|[]]]; eauto. rewrite Fo. auto.
Qed.
Lemma put_same (R : regs) k r : forall k' r', put_reg R k r (R k r) k' r' = R k' r'.
Proof.
  intros k' r'. unfold put_reg. destruct (kind_eqb k' k) eqn:K; auto. simpl. destruct (Nat.eqb_spec r' r) as [->|]; auto. destruct k, k'; simpl in K; congruence.
Qed.
(** A register without a wire. *)
Lemma inv_track_zero st e R k r : Inv st e R -> ~ In r (map fst (s_latest st k)) -> R k r = zero -> Inv (fst (track st k r)) e R.
Proof.
  intros I Nr Z. pose proof I as [A B C D F G]. pose proof (proj2 (get_none _ _) Nr) as Gn.
  assert (Hel : s_elems (fst (track st k r)) = upd (s_elems st) k (s_elems st k ++ [{| e_reg := r; e_old := false |}])) by (unfold track; rewrite Gn; reflexivity).
  assert (Hla : s_latest (fst (track st k r)) = upd (s_latest st) k (insert r (length (s_elems st k)) (s_latest st k))) by (unfold track; rewrite Gn; reflexivity).
  assert (Hw : s_wires (fst (track st k r)) = s_wires st) by reflexivity. assert (Hn : s_next (fst (track st k r)) = s_next st) by reflexivity.
  assert (Bound : forall k' id w' d', In (w', d') (s_wires st) -> In id (w_ids d' k') -> id < length (s_elems st k')).
  { intros k' id w' d' X Y. destruct (C w' d' X) as [_ [(k0 & i0 & Q1 & Q2 & _ & Q3)|Q]]; [|rewrite Q in Y; destruct Y].
    destruct (kind_cases k0 k') as [->| ->]; [rewrite Q1 in Y; destruct Y as [<-|[]]; auto|rewrite Q2 in Y; destruct Y]. }
  constructor.
  - intros k'. rewrite Hla. destruct (kind_cases k k') as [->| ->]; [rewrite upd_same; apply nodup_insert; auto|rewrite upd_other; auto].
  - intros k' r' id. rewrite Hel, Hla. destruct (kind_cases k k') as [->| ->]; [rewrite !upd_same|rewrite !upd_other; auto].
    rewrite in_insert by auto. intros [[-> ->]|[Ne L]].
    + rewrite nth_error_app2 by lia. rewrite Nat.sub_diag. simpl. eexists; split; reflexivity.
    + destruct (B _ _ _ L) as [x [X Y]]. exists x. rewrite nth_error_app1; auto. apply nth_error_Some; congruence.
  - intros w' d'. rewrite Hw, Hn. intros X. destruct (C _ _ X). split; [assumption|]. apply (inv_elems_shape st); [|assumption].
    intros k'. rewrite Hel. destruct (kind_cases k k') as [->| ->]; [rewrite upd_same, app_length; lia|rewrite upd_other; lia].
  - rewrite Hw. auto.
  - rewrite Hw. auto.
  - intros k' r' id x. rewrite Hel, Hla, Hw. destruct (kind_cases k k') as [->| ->]; [rewrite !upd_same|rewrite !upd_other; apply G].
    rewrite in_insert by auto. intros [[-> ->]|[Ne L]] X O.
    + right. split; auto. intros w d Y Q. pose proof (Bound _ _ _ _ Y Q). lia.
    + destruct (B _ _ _ L) as [y [Y _]]. rewrite nth_error_app1 in X by (apply nth_error_Some; congruence). eauto.
Qed.

(** ** Nodes *)
Definition grows (st : state) (e : env) (st' : state) (e' : env) : Prop :=
  (exists ns, s_nodes st' = s_nodes st ++ ns /\ meaning (map t_node ns) e = Some e') /\ s_next st <= s_next st' /\ forall w, w < s_next st -> look e' w = look e w.
Lemma grows_refl st e : grows st e st e.
Proof. split; [exists []; rewrite app_nil_r; auto|auto]. Qed.
Lemma meaning_app ns ns' e : meaning (ns ++ ns') e = match meaning ns e with Some e => meaning ns' e | None => None end.
Proof. revert e. induction ns as [|n ns IH]; intros e; simpl; auto. destruct (gather e (nin n)); auto. Qed.
Lemma grows_trans st e st1 e1 st2 e2 : grows st e st1 e1 -> grows st1 e1 st2 e2 -> grows st e st2 e2.
Proof.
  intros [(ns & A & B) [C D]] [(ns' & A' & B') [C' D']]. split; [|split; [lia|]].
  - exists (ns ++ ns'). split; [rewrite A', A, app_assoc; auto|]. rewrite map_app, meaning_app, B. auto.
  - intros w L. rewrite D', D; auto. lia.
Qed.
(** The state may change in other respects. *)
Lemma grows_same st e st1 e1 st2 : grows st e st1 e1 -> s_nodes st2 = s_nodes st1 -> s_next st2 = s_next st1 -> grows st e st2 e1.
Proof. intros [(ns & A & B) [C D]] X Y. split; [exists ns; rewrite X; auto|rewrite Y; auto]. Qed.
Lemma look_app_none (d e : env) w : ~ In w (map fst d) -> look (d ++ e) w = look e w.
Proof. induction d as [|[x v] d IH]; simpl; auto. intros N. destruct (Nat.eqb_spec x w); [tauto|apply IH; tauto]. Qed.
Lemma keys_deal outs (qs bs : list V) (ps : list P) : map fst (deal outs qs bs ps : env) = map fst outs.
Proof. revert qs bs ps. induction outs as [|[w c] outs IH]; intros; simpl; auto. rewrite IH. auto. Qed.
Lemma keys_values n v x : In x (map fst (node_values n v)) -> In x (map fst (nout n)).
Proof. unfold EncSpec.node_values. destruct (what n); rewrite ?keys_deal; auto. intros []. Qed.
Lemma keys_outs (n : nat) (l : list ty) : map fst (combine (seq n (length l)) (map count_or_default l)) = seq n (length l).
Proof. revert n. induction l as [|t l IH]; intros n; simpl; auto. rewrite IH. auto. Qed.
Definition the_node (st : state) (i : inst Op E) (ins : list wire) (to : list ty) : node Op E := {| what := i; nin := ins; nout := combine (seq (s_next st) (length to)) (map count_or_default to) |}.
Lemma add_node_grows st e i ins ti to v : gather e ins = Some v ->
  grows st e (fst (add_node st i ins ti to)) (node_values (the_node st i ins to) v ++ e).
Proof.
  intros G. split; [|split; [simpl; lia|]].
  - eexists. split; [reflexivity|]. simpl. rewrite G. reflexivity.
  - intros w L. apply look_app_none. intros X. apply keys_values in X. simpl in X. rewrite keys_outs in X. apply in_seq in X. lia.
Qed.
Lemma inv_add_node st e R i ins ti to v : Inv st e R -> gather e ins = Some v -> Inv (fst (add_node st i ins ti to)) (node_values (the_node st i ins to) v ++ e) R.
Proof.
  intros I G. assert (Inv st (node_values (the_node st i ins to) v ++ e) R) as [A B C D F H].
  { revert I. apply inv_env. destruct (add_node_grows st e i ins ti to v G) as [_ [_ X]]. exact X. }
  constructor; auto. intros w d X. destruct (C w d X). split; auto. simpl. lia.
Qed.
Lemma fresh_key st e R w : Inv st e R -> s_next st <= w -> ~ In w (map fst (s_wires st)).
Proof. intros I L X. apply in_map_iff in X as [[x d] [<- X]]. apply (i_shape _ _ _ I) in X. simpl in *. lia. Qed.
Lemma gather_one (e : env) w v : look e w = Some v -> gather e [w] = Some (vapp V P v {| vq := []; vb := []; vp := [] |}).
Proof. intros L. simpl. rewrite L. reflexivity. Qed.

(** ** Finding a wire *)
Lemma tracked_facts st e R k r a : Inv st e R -> tracked st k r = Some a ->
  a_reg a = r /\ In (r, a_id a) (s_latest st k) /\ nth_error (s_elems st k) (a_id a) = Some {| e_reg := r; e_old := a_old a |}.
Proof.
  intros I. unfold tracked. destruct (get r (s_latest st k)) as [i|] eqn:G; [|discriminate]. apply get_in in G; [|apply I].
  destruct (i_elem _ _ _ I _ _ _ G) as [x [X Y]]. rewrite X. intros [= <-]. simpl. repeat split; auto. rewrite X. destruct x; simpl in *; subst; auto.
Qed.
Lemma keys_track l r (id : nat) : In r (map fst l) -> map fst (insert r id l) = map fst l.
Proof. intros I. rewrite keys_insert. apply mem_in in I. rewrite I. auto. Qed.
Definition same_keys (st st' : state) : Prop := forall k, map fst (s_latest st' k) = map fst (s_latest st k).
Lemma track_one_keys (st : state) k w t r : In r (map fst (s_latest st k)) -> same_keys st (track_one st k w t r).
Proof.
  intros I k'. destruct (track_one_fields st k w t r) as (_ & _ & _ & _ & F5). rewrite F5. destruct (kind_cases k k') as [->| ->]; [rewrite upd_same; apply keys_track; auto|rewrite upd_other; auto].
Qed.
Lemma data_of_in (st : state) w d : NoDup (map fst (s_wires st)) -> In (w, d) (s_wires st) -> data_of st w = Some d.
Proof.
  unfold data_of. induction (s_wires st) as [|[x y] l IH]; simpl; intros N I; [destruct I|]. inversion N as [|? ? N1 N2]; subst.
  destruct I as [[= <- <-]|I]; [rewrite Nat.eqb_refl; auto|]. destruct (Nat.eqb_spec x w) as [->|]; [|apply IH; auto].
  exfalso. apply N1. apply in_map_iff. exists (w, d). auto.
Qed.
Definition frame (st st' : state) (k : kind) (r : nat) : Prop := forall k' r', (k', r') <> (k, r) -> tracked st' k' r' = tracked st k' r'.
(** The wire that was found or made before conversion. *)
Record found (st : state) (e : env) (R : regs) (k : kind) (r : nat) (st1 : state) (w : wire) (e1 : env) : Prop := {
  f_grows : grows st e st1 e1; f_inv : Inv st1 e1 R; f_look : look e1 w = Some (single k (R k r)); f_frame : frame st st1 k r; f_keys : same_keys st st1;
  f_data : exists d id, In (w, d) (s_wires st1) /\ w_ids d k = [id] /\ w_ids d (other k) = [] /\ fits (w_ty d) k /\ (exists x, nth_error (s_elems st1 k) id = Some x /\ e_reg x = r) }.
Definition initialize (st : state) (k : kind) (r : nat) : state * wire := match k with Qb => initialize_qubit st r | Bt => initialize_bit st r end.
Lemma wire_shape st e R w d k id : Inv st e R -> In (w, d) (s_wires st) -> In id (w_ids d k) -> w_ids d k = [id] /\ w_ids d (other k) = [] /\ fits (w_ty d) k.
Proof.
  intros I X Y. destruct (i_shape _ _ _ I w d X) as [_ [(k0 & i & A & B & C & _)|N]]; [|rewrite N in Y; destruct Y].
  destruct (kind_cases k0 k) as [->| ->]; [|rewrite B in Y; destruct Y]. rewrite A in Y. destruct Y as [<-|[]]. auto.
Qed.
Lemma found_old st e R k r a w d : Inv st e R -> tracked st k r = Some a -> a_old a = false -> In (w, d) (s_wires st) -> In (a_id a) (w_ids d k) -> found st e R k r st w e.
Proof.
  intros I T O X Y. destruct (tracked_facts _ _ _ _ _ _ I T) as (_ & L & N). destruct (wire_shape _ _ _ _ _ _ _ I X Y) as (A & B & C).
  constructor; auto using grows_refl.
  - destruct (i_val _ _ _ I _ _ _ _ L N) as [(w' & d' & X' & A' & L')|[Z _]]; simpl; auto.
    + rewrite (i_uniq _ _ _ I k (a_id a) w d w' d'); auto. rewrite A'. left; auto.
    + exfalso. exact (Z _ _ X Y).
  - intros ? ? _; auto.
  - intros ?; auto.
  - exists d, (a_id a). repeat split; auto. eexists; split; [exact N|reflexivity].
Qed.
Lemma found_new st e R k r a st1 w : Inv st e R -> tracked st k r = Some a -> a_old a = false -> (forall w d, In (w, d) (s_wires st) -> ~ In (a_id a) (w_ids d k)) ->
  initialize st k r = (st1, w) -> exists e1, found st e R k r st1 w e1.
Proof.
  intros I T O N Hi. destruct (tracked_facts _ _ _ _ _ _ I T) as (_ & L & Nt).
  assert (Z : R k r = zero).
  { destruct (i_val _ _ _ I _ _ _ _ L Nt) as [(w' & d' & X' & A' & _)|[_ Z]]; auto. exfalso. apply (N _ _ X'). rewrite A'. left; auto. }
  set (i := match k with Qb => IAlloc | Bt => IConst false end : inst Op E). set (t := match k with Qb => TQ | Bt => TB end).
  assert (Hi' : st1 = track_one (fst (add_node st i [] [] [t])) k (s_next st) t r /\ w = s_next st) by (subst i t; destruct k; simpl in Hi; injection Hi as <- <-; auto).
  destruct Hi' as [-> ->]. clear Hi.
  set (v := {| vq := []; vb := []; vp := [] |} : val). set (e1 := node_values (the_node st i [] [t]) v ++ e). exists e1.
  pose proof (add_node_grows st e i [] [] [t] v eq_refl) as G1. pose proof (inv_add_node st e R i [] [] [t] v I eq_refl) as I1. fold e1 in G1, I1.
  set (st0 := fst (add_node st i [] [] [t])) in *.
  assert (Lk : look e1 (s_next st) = Some (single k (R k r))) by (rewrite Z; subst e1 i t v; destruct k; simpl; rewrite Nat.eqb_refl; reflexivity).
  assert (Ft : fits t k) by (subst t; destruct k; simpl; auto).
  destruct (track_one_fields st0 k (s_next st) t r) as (F1 & F2 & (d & F3 & Fd & Fi & Fo) & F4 & F5).
  assert (F : ~ In (s_next st) (map fst (s_wires st0))) by (apply (fresh_key st e R); auto).
  assert (I2 : Inv (track_one st0 k (s_next st) t r) e1 R).
  { eapply inv_ext; [|eapply inv_track_one; eauto; simpl; lia]. intros; apply put_same. }
  constructor; auto.
  - eapply grows_same; eauto.
  - intros k' r' Ne. apply (track_frame st e1 R k r); auto. apply (inv_env st e); auto. destruct G1 as [_ [_ X]]. exact X.
  - apply (track_one_keys st0 k). apply in_map_iff. exists (r, a_id a). auto.
  - exists d, (length (s_elems st k)). rewrite F3, in_app_iff. repeat split; simpl; auto.
    + rewrite Fd. auto.
    + rewrite F4, upd_same. change (s_elems st) with (s_elems st0). rewrite (elems'_new st0 e1 R); auto. eexists; split; reflexivity.
Qed.


Variables read_op make_op : Op.
Notation find_typed_wire := (find_typed_wire read_op make_op).
Notation find_typed_wires := (find_typed_wires read_op make_op).

Definition convert (st : state) (k : kind) (w : wire) (t : ty) (r : nat) : res (state * wire) :=
  match data_of st w with
  | None => Err Panic
  | Some d =>
      if ty_eqb (w_ty d) t then Ok (st, w)
      else o <- match w_ty d, t with TB, TT => Ok make_op | TT, TB => Ok read_op | _, _ => Err CannotTranslateWire end ;;
           Ok (mark_wire_outdated (track_one (fst (add_node st (ITransparent o) [w] [w_ty d] [t])) k (s_next st) (w_ty d) r) d, s_next st)
  end.
Lemma frame_trans st st1 st2 k r : frame st st1 k r -> frame st1 st2 k r -> frame st st2 k r.
Proof. intros A B k' r' N. rewrite B, A; auto. Qed.
Lemma convert_ok st e R k w t r d id st' w' : Inv st e R -> look e w = Some (single k (R k r)) -> In r (map fst (s_latest st k)) ->
  In (w, d) (s_wires st) -> w_ids d k = [id] -> w_ids d (other k) = [] -> fits (w_ty d) k -> fits t k -> (exists x, nth_error (s_elems st k) id = Some x /\ e_reg x = r) ->
  convert st k w t r = Ok (st', w') ->
  exists e', grows st e st' e' /\ Inv st' e' R /\ look e' w' = Some (single k (R k r)) /\ frame st st' k r /\ same_keys st st' /\ w' < s_next st'.
Proof.
  intros I L Lr W Ii Io Fd Ft (x & X1 & X2). unfold convert. rewrite (data_of_in st w d) by (auto; apply I).
  assert (Lw : w < s_next st) by (apply (i_shape _ _ _ I) in W; tauto).
  destruct (ty_eqb (w_ty d) t) eqn:Q.
  - intros [= <- <-]. exists e. split; [apply grows_refl|]. split; auto. split; auto. split; [intros ? ? _; auto|]. split; auto. intros ?; auto.
  - assert (K : k = Bt /\ fits (w_ty d) Bt /\ fits t Bt) by (destruct k; simpl in *; [rewrite Fd, Ft in Q; discriminate|auto]). destruct K as [-> [Fd' Ft']].
    destruct (match w_ty d, t with TB, TT => Ok make_op | TT, TB => Ok read_op | _, _ => Err CannotTranslateWire end) as [o|]; [|discriminate]. intros Q'.
    assert (Q1 : st' = mark_wire_outdated (track_one (fst (add_node st (ITransparent o) [w] [w_ty d] [t])) Bt (s_next st) (w_ty d) r) d) by (cbn [bind] in Q'; congruence).
    assert (Q2 : w' = s_next st) by (cbn [bind] in Q'; congruence). clear Q'. subst st' w'.
    set (v := vapp V P (single Bt (R Bt r)) {| vq := []; vb := []; vp := [] |}). pose proof (gather_one _ _ _ L) as G. fold v in G.
    pose proof (add_node_grows st e (ITransparent o) [w] [w_ty d] [t] v G) as G1. pose proof (inv_add_node st e R (ITransparent o) [w] [w_ty d] [t] v I G) as I1.
    set (e1 := node_values (the_node st (ITransparent o) [w] [t]) v ++ e) in *. set (st0 := fst (add_node st (ITransparent o) [w] [w_ty d] [t])) in *.
    assert (Lk : look e1 (s_next st) = Some (single Bt (R Bt r))) by (subst e1 v; simpl; rewrite Nat.eqb_refl; destruct Ft' as [->| ->]; reflexivity).
    assert (I2 : Inv (track_one st0 Bt (s_next st) (w_ty d) r) e1 R).
    { eapply inv_ext; [|eapply inv_track_one; eauto; [simpl; lia|apply (fresh_key st e R); auto]]. intros; apply put_same. }
    destruct (track_one_fields st0 Bt (s_next st) (w_ty d) r) as (F1 & F2 & (d2 & F3 & _) & F4 & F5).
    assert (M : mark_wire_outdated (track_one st0 Bt (s_next st) (w_ty d) r) d = mark_outdated (track_one st0 Bt (s_next st) (w_ty d) r) Bt id) by (unfold mark_wire_outdated; change Qb with (other Bt); rewrite Io, Ii; reflexivity).
    rewrite M. exists e1. split; [exact G1|]. split; [|split; [exact Lk|split; [|split]]].
    + apply inv_mark; auto.
    + intros k' r' Ne. rewrite tracked_mark; try apply I2.
      * apply (track_frame st0 e1 R Bt r); auto.
      * intros y Y -> Ey. rewrite F4, upd_same in Y. destruct (elems'_old' st0 Bt r _ _ X1) as [z [Z1 Z2]]. rewrite Z1 in Y. injection Y as <-. apply Ne. congruence.
    + exact (track_one_keys st0 Bt (s_next st) (w_ty d) r Lr).
    + simpl s_next. lia.
Qed.
Lemma list_eqb_eq a b : nat_list_eqb a b = true -> a = b.
Proof.
  revert b. induction a as [|x a IH]; intros [|y b]; simpl; try discriminate; auto. intros Q. apply andb_true_iff in Q as [A B]. apply Nat.eqb_eq in A. f_equal; auto.
Qed.
Lemma list_eqb_refl a : nat_list_eqb a a = true.
Proof. induction a as [|x a IH]; simpl; auto. rewrite Nat.eqb_refl. auto. Qed.
Lemma wires_with_in (st : state) k id x : In x (wires_with st k id) <-> In x (s_wires st) /\ In id (w_ids (snd x) k).
Proof. unfold wires_with. rewrite filter_In, mem_in. tauto. Qed.

Definition cand (st : state) (qs bs : list arg) : list (wire * wdata) :=
  (match qs with q :: _ => wires_with st Qb (a_id q) | [] => [] end) ++ (match bs with b :: _ => wires_with st Bt (a_id b) | [] => [] end).
Definition check (wq wb : list arg) (t : ty) (x : wire * wdata) : bool := nat_list_eqb (w_ids (snd x) Qb) (map a_id wq) && nat_list_eqb (w_ids (snd x) Bt) (map a_id wb) && isomorphic (w_ty (snd x)) t.
Lemma cand_in (st : state) qs bs x : In x (cand st qs bs) -> In x (s_wires st) /\ exists k i, In i (w_ids (snd x) k).
Proof.
  unfold cand. rewrite in_app_iff. intros [I|I].
  - destruct qs; [destruct I|]. apply wires_with_in in I as [A B]. eauto.
  - destruct bs; [destruct I|]. apply wires_with_in in I as [A B]. eauto.
Qed.
(** Wires of one register. *)
Lemma check_found st e R k t a qs bs x : Inv st e R -> fits t k ->
  find (check (match k with Qb => [a] | Bt => [] end) (match k with Qb => [] | Bt => [a] end) t) (cand st qs bs) = Some x ->
  In x (s_wires st) /\ In (a_id a) (w_ids (snd x) k).
Proof.
  intros I Ft Q. apply find_some in Q as [Q1 Q2]. apply cand_in in Q1 as [Q1 _]. split; auto. unfold check in Q2. apply andb_true_iff in Q2 as [Q2 _]. apply andb_true_iff in Q2 as [A B].
  apply list_eqb_eq in A. apply list_eqb_eq in B. destruct k; simpl in *; [rewrite A|rewrite B]; left; auto.
Qed.
Lemma check_none st e R k t a qs bs : Inv st e R -> fits t k -> In a (match k with Qb => firstn 1 qs | Bt => firstn 1 bs end) ->
  find (check (match k with Qb => [a] | Bt => [] end) (match k with Qb => [] | Bt => [a] end) t) (cand st qs bs) = None ->
  forall w d, In (w, d) (s_wires st) -> ~ In (a_id a) (w_ids d k).
Proof.
  intros I Ft Ha Q w d W X. destruct (wire_shape _ _ _ _ _ _ _ I W X) as (A & B & C).
  assert (Y : In (w, d) (cand st qs bs)).
  { unfold cand. apply in_app_iff. destruct k; [left; destruct qs as [|q qs]|right; destruct bs as [|q bs]]; simpl in Ha; try tauto; destruct Ha as [->|[]]; apply wires_with_in; auto. }
  pose proof (find_none _ _ Q _ Y) as Z. unfold check in Z. cbn [snd] in Z. revert Z. destruct k; cbn [other fits] in *.
  - rewrite A, B, C, Ft. simpl. rewrite Nat.eqb_refl. discriminate.
  - rewrite A, B. simpl. rewrite Nat.eqb_refl. destruct C as [->| ->], Ft as [->| ->]; discriminate.
Qed.

Definition found_wire (st : state) (e : env) (R : regs) (t : ty) (qs bs : list arg) (ps : list wire) (st' : state) (w : wire) (qs' bs' : list arg) (ps' : list wire) (e' : env) : Prop :=
  match t with
  | TP => ps = w :: ps' /\ qs' = qs /\ bs' = bs /\ st' = st /\ e' = e
  | TQ => exists a, qs = a :: qs' /\ bs' = bs /\ ps' = ps /\ a_old a = false /\ look e' w = Some (single Qb (R Qb (a_reg a))) /\ frame st st' Qb (a_reg a) /\ w < s_next st'
  | TB | TT => exists a, bs = a :: bs' /\ qs' = qs /\ ps' = ps /\ a_old a = false /\ look e' w = Some (single Bt (R Bt (a_reg a))) /\ frame st st' Bt (a_reg a) /\ w < s_next st'
  | _ => False
  end.
Definition good_args (st : state) (qs bs : list arg) : Prop := (forall a, In a qs -> tracked st Qb (a_reg a) = Some a) /\ (forall a, In a bs -> tracked st Bt (a_reg a) = Some a).

(** The common part for a qubit and a bit. *)
Lemma find_core st e R k t a (sel : res (state * wire)) st' w' :
  Inv st e R -> fits t k -> tracked st k (a_reg a) = Some a -> a_old a = false ->
  (exists st1 w, sel = Ok (st1, w) /\ ((st1 = st /\ exists d, In (w, d) (s_wires st) /\ In (a_id a) (w_ids d k)) \/ ((forall w d, In (w, d) (s_wires st) -> ~ In (a_id a) (w_ids d k)) /\ initialize st k (a_reg a) = (st1, w))) /\
     convert st1 k w t (a_reg a) = Ok (st', w')) ->
  exists e', grows st e st' e' /\ Inv st' e' R /\ look e' w' = Some (single k (R k (a_reg a))) /\ frame st st' k (a_reg a) /\ same_keys st st' /\ w' < s_next st'.
Proof.
  intros I Ft T O (st1 & w & _ & Hsel & Hc).
  assert (F : exists e1, found st e R k (a_reg a) st1 w e1).
  { destruct Hsel as [[-> (d & W & X)]|[N Hi]]; [exists e; eapply found_old; eauto|eapply found_new; eauto]. }
  destruct F as [e1 [G1 I1 L1 Fr1 K1 (d & id & W & Ii & Io & Fd & X)]].
  assert (Lr : In (a_reg a) (map fst (s_latest st1 k))).
  { rewrite (K1 k). destruct (tracked_facts _ _ _ _ _ _ I T) as (_ & L & _). apply in_map_iff. eexists; split; [|exact L]. reflexivity. }
  destruct (convert_ok st1 e1 R k w t (a_reg a) d id st' w' I1 L1 Lr W Ii Io Fd Ft X Hc) as (e' & G2 & I2 & L2 & Fr2 & K2 & Lt).
  exists e'. split; [eapply grows_trans; eauto|]. split; auto. split; auto. split; [eapply frame_trans; eauto|]. split; auto. intros k'. rewrite K2, K1. auto.
Qed.

Definition select (st : state) (k : kind) (t : ty) (a : arg) (qs bs : list arg) : state * wire :=
  match find (check (match k with Qb => [a] | Bt => [] end) (match k with Qb => [] | Bt => [a] end) t) (cand st qs bs) with
  | Some x => (st, fst x)
  | None => initialize st k (a_reg a)
  end.
Lemma find_qubit st a qs bs ps : find_typed_wire st TQ (a :: qs) bs ps =
  if a_old a then Err OutdatedQubit
  else '(st2, w2) <- convert (fst (select st Qb TQ a (a :: qs) bs)) Qb (snd (select st Qb TQ a (a :: qs) bs)) TQ (a_reg a) ;; Ok (st2, w2, qs, bs, ps).
Proof.
  unfold DecModel.find_typed_wire, select. change (type_to_pytket TQ) with (Some {| cq := 1; cb := 0; cp := 0 |}). cbn [cq cb firstn skipn].
  match goal with |- context [find ?f ?l] => change (find f l) with (find (check [a] [] TQ) (cand st (a :: qs) bs)) end.
  change (initialize st Qb (a_reg a)) with (initialize_qubit st (a_reg a)).
  destruct (find (check [a] [] TQ) (cand st (a :: qs) bs)) as [x|]; [|destruct (initialize_qubit st (a_reg a)) as [st1 w1]]; cbn [bind existsb fst snd];
    destruct (a_old a); cbn [orb]; auto; unfold convert; match goal with |- context [data_of ?a ?b] => destruct (data_of a b) as [d|] end; auto; destruct (ty_eqb (w_ty d) TQ); auto; destruct (w_ty d); auto.
Qed.
Lemma find_bit st t a qs bs ps : fits t Bt -> find_typed_wire st t qs (a :: bs) ps =
  if a_old a then Err OutdatedBit
  else '(st2, w2) <- convert (fst (select st Bt t a qs (a :: bs))) Bt (snd (select st Bt t a qs (a :: bs))) t (a_reg a) ;; Ok (st2, w2, qs, bs, ps).
Proof.
  intros [->| ->]; unfold DecModel.find_typed_wire, select;
    [change (type_to_pytket TB) with (Some {| cq := 0; cb := 1; cp := 0 |})|change (type_to_pytket TT) with (Some {| cq := 0; cb := 1; cp := 0 |})]; cbn [cq cb firstn skipn].
  - match goal with |- context [find ?f ?l] => change (find f l) with (find (check [] [a] TB) (cand st qs (a :: bs))) end.
    change (initialize st Bt (a_reg a)) with (initialize_bit st (a_reg a)).
    destruct (find (check [] [a] TB) (cand st qs (a :: bs))) as [x|]; [|destruct (initialize_bit st (a_reg a)) as [st1 w1]]; cbn [bind existsb fst snd];
      destruct (a_old a); cbn [orb]; auto; unfold convert; match goal with |- context [data_of ?a ?b] => destruct (data_of a b) as [d|] end; auto; destruct (ty_eqb (w_ty d) TB); auto; destruct (w_ty d); auto.
  - match goal with |- context [find ?f ?l] => change (find f l) with (find (check [] [a] TT) (cand st qs (a :: bs))) end.
    change (initialize st Bt (a_reg a)) with (initialize_bit st (a_reg a)).
    destruct (find (check [] [a] TT) (cand st qs (a :: bs))) as [x|]; [|destruct (initialize_bit st (a_reg a)) as [st1 w1]]; cbn [bind existsb fst snd];
      destruct (a_old a); cbn [orb]; auto; unfold convert; match goal with |- context [data_of ?a ?b] => destruct (data_of a b) as [d|] end; auto; destruct (ty_eqb (w_ty d) TT); auto; destruct (w_ty d); auto.
Qed.
Lemma find_qubit_nil (st : state) bs ps x : find_typed_wire st TQ [] bs ps <> Ok x.
Proof.
  cbn. match goal with |- context [find ?f ?l] => destruct (find f l) as [y|] eqn:Fx end; [|discriminate].
  apply find_some in Fx as [X1 X2]. destruct bs as [|b bs]; [destruct X1|]. apply wires_with_in in X1 as [_ X1].
  apply andb_true_iff in X2 as [X2 _]. apply andb_true_iff in X2 as [_ X2]. apply list_eqb_eq in X2. rewrite X2 in X1. destruct X1.
Qed.
Lemma find_bit_nil (st : state) t qs ps x : fits t Bt -> find_typed_wire st t qs [] ps <> Ok x.
Proof.
  intros [->| ->]; cbn; (match goal with |- context [find ?f ?l] => destruct (find f l) as [y|] eqn:Fx end; [|discriminate]);
  rewrite app_nil_r in Fx; apply find_some in Fx as [X1 X2]; (destruct qs as [|b qs]; [destruct X1|]); apply wires_with_in in X1 as [_ X1];
  apply andb_true_iff in X2 as [X2 _]; apply andb_true_iff in X2 as [X2 _]; apply list_eqb_eq in X2; rewrite X2 in X1; destruct X1.
Qed.
Lemma find_tuple_none st e R l qs bs ps x : Inv st e R -> find_typed_wire st (TTup l) qs bs ps <> Ok x.
Proof.
  intros I. unfold DecModel.find_typed_wire. destruct (type_to_pytket (TTup l)) as [c|]; [|discriminate].
  match goal with |- context [find ?f ?l0] => change (find f l0) with (find (check (firstn (cq c) qs) (firstn (cb c) bs) (TTup l)) (cand st qs bs)) end.
  destruct (find _ _) as [[w0 d0]|] eqn:Q; [|discriminate]. exfalso. apply find_some in Q as [Q1 Q2]. apply cand_in in Q1 as [Q1 (k & i & Q3)].
  destruct (wire_shape _ _ _ _ _ _ _ I Q1 Q3) as (_ & _ & F). unfold check in Q2. apply andb_true_iff in Q2 as [_ Q2]. simpl in Q2.
  destruct k; simpl in F; [rewrite F in Q2|destruct F as [F|F]; rewrite F in Q2]; discriminate.
Qed.
Lemma select_cases st e R k t a qs bs : Inv st e R -> fits t k -> In a (match k with Qb => firstn 1 qs | Bt => firstn 1 bs end) ->
  let st1 := fst (select st k t a qs bs) in let w1 := snd (select st k t a qs bs) in
  (st1 = st /\ exists d, In (w1, d) (s_wires st) /\ In (a_id a) (w_ids d k)) \/ ((forall w d, In (w, d) (s_wires st) -> ~ In (a_id a) (w_ids d k)) /\ initialize st k (a_reg a) = (st1, w1)).
Proof.
  intros I F Ha. unfold select. destruct (find _ _) as [[w0 d0]|] eqn:Fx; simpl.
  - left. split; auto. exists d0. exact (check_found st e R k t a qs bs _ I F Fx).
  - right. split; [exact (check_none st e R k t a qs bs I F Ha Fx)|]. apply surjective_pairing.
Qed.
Lemma find_typed_wire_ok st e R t qs bs ps st' w qs' bs' ps' : Inv st e R -> good_args st qs bs ->
  find_typed_wire st t qs bs ps = Ok (st', w, qs', bs', ps') ->
  exists e', grows st e st' e' /\ Inv st' e' R /\ same_keys st st' /\ found_wire st e R t qs bs ps st' w qs' bs' ps' e'.
Proof.
  intros I [Gq Gb].
  assert (Bits : fits t Bt -> find_typed_wire st t qs bs ps = Ok (st', w, qs', bs', ps') -> exists e', grows st e st' e' /\ Inv st' e' R /\ same_keys st st' /\
    exists a, bs = a :: bs' /\ qs' = qs /\ ps' = ps /\ a_old a = false /\ look e' w = Some (single Bt (R Bt (a_reg a))) /\ frame st st' Bt (a_reg a) /\ w < s_next st').
  { intros Ft Q. destruct bs as [|a bs]; [exfalso; exact (find_bit_nil _ _ _ _ _ Ft Q)|]. rewrite find_bit in Q by auto. destruct (a_old a) eqn:O; [discriminate|].
    destruct (convert _ Bt _ t (a_reg a)) as [[st2 w2]|] eqn:Hc; [|discriminate]. injection Q as <- <- <- <- <-.
    pose proof (select_cases st e R Bt t a qs (a :: bs) I Ft (or_introl eq_refl)) as Hs.
    destruct (find_core st e R Bt t a (Ok (select st Bt t a qs (a :: bs))) st2 w2 I Ft (Gb a (or_introl eq_refl)) O) as (e' & A & B & C & D & F & G).
    { do 2 eexists. split; [rewrite (surjective_pairing (select st Bt t a qs (a :: bs))); reflexivity|]. split; auto. }
    exists e'. split; auto. split; auto. split; auto. exists a. repeat split; auto. }
  destruct t as [| | | |l|n].
  - intros Q. destruct qs as [|a qs]; [exfalso; exact (find_qubit_nil _ _ _ _ Q)|]. rewrite find_qubit in Q by auto. destruct (a_old a) eqn:O; [discriminate|].
    destruct (convert _ Qb _ TQ (a_reg a)) as [[st2 w2]|] eqn:Hc; [|discriminate]. injection Q as <- <- <- <- <-.
    pose proof (select_cases st e R Qb TQ a (a :: qs) bs I eq_refl (or_introl eq_refl)) as Hs.
    destruct (find_core st e R Qb TQ a (Ok (select st Qb TQ a (a :: qs) bs)) st2 w2 I eq_refl (Gq a (or_introl eq_refl)) O) as (e' & A & B & C & D & F & G).
    { do 2 eexists. split; [rewrite (surjective_pairing (select st Qb TQ a (a :: qs) bs)); reflexivity|]. split; auto. }
    exists e'. split; auto. split; auto. split; auto. exists a. repeat split; auto.
  - apply Bits. simpl; auto.
  - apply Bits. simpl; auto.
  - destruct ps as [|p ps]; [discriminate|]. intros [= <- <- <- <- <-]. exists e. split; [apply grows_refl|]. split; auto. split; [intros ?; auto|]. simpl. auto.
  - intros Q. exfalso. exact (find_tuple_none _ _ _ _ _ _ _ _ I Q).
  - discriminate.
Qed.
End Dec.
