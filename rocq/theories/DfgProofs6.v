(** Exchanging the qubits of both sides, and renaming qubits: every run of a daggered region
    comes from a run of the region. *)
From Coq Require Import List Arith Bool Lia Permutation.
From Verif Require Import OpsModel ResolveModel ResolveSpec ResolveMain DfgModel DfgSpec DfgProofs DfgProofs2 DfgProofs3 DfgProofs4 DfgProofs5.
Import ListNotations.
Local Notation S := Datatypes.S.

Lemma counterpart_out : forall rin rout, reversible_rows rin rout ->
  (forall i, nth_error rin i = Some true -> exists j, counterpart (fun b => b) rin i rout j) /\
  (forall j, nth_error rout j = Some true -> exists i, counterpart (fun b => b) rin i rout j).
Proof.
  intros rin rout R. destruct (body_corr true 0 rin rout (fun _ => R)) as (m & _ & _ & H & T). split.
  - intros i N. destruct (T (Outgoing, i)) as (p' & J).
    { unfold in_ports. simpl. apply nth_error_Some. congruence. }
    specialize (H _ _ J). simpl in H. destruct H as (b & Nb & H). rewrite N in Nb. injection Nb as <-.
    destruct H as (j & _ & C). eauto.
  - intros j N. destruct (T (Incoming, j)) as (p' & J).
    { unfold in_ports. simpl. apply nth_error_Some. congruence. }
    specialize (H _ _ J). simpl in H. destruct H as (b & Nb & H). rewrite N in Nb. injection Nb as <-.
    destruct H as (i & _ & C). exists i. apply counterpart_sym. auto.
Qed.

Section Values.
Variable V : Type.

Lemma exchanged_exists : forall rin rout (ins outs : list (value V)), reversible_rows rin rout ->
  Forall2 of_type rin ins -> Forall2 of_type rout outs ->
  exists ins' outs', exchanged rin rout ins outs ins' outs' /\
    Forall2 of_type rin ins' /\ Forall2 of_type rout outs'.
Proof.
  intros rin rout ins outs R Ti To.
  destruct (counterpart_out _ _ R) as [CI CO].
  pose proof (Forall2_len _ _ _ _ _ Ti) as Li. pose proof (Forall2_len _ _ _ _ _ To) as Lo.
  destruct (list_choice (value V) (fun i x =>
      (nth_error rin i = Some false -> nth_error ins i = Some x) /\
      (forall j, counterpart (fun b => b) rin i rout j -> nth_error outs j = Some x)) (length ins)) as (ins' & L' & HI).
  { intros i L. rewrite <- Li in L. destruct (nth_ex _ _ _ L) as ([] & N).
    - destruct (CI _ N) as (j & C). destruct (counterpart_true _ _ _ _ C) as [_ Nj].
      destruct (nth_ex _ outs j) as (x & Nx); [rewrite <- Lo; apply nth_error_Some; congruence|].
      exists x. split; [congruence|]. intros j' C'. rewrite (counterpart_fun _ _ _ _ _ C' C). auto.
    - rewrite Li in L. destruct (nth_ex _ _ _ L) as (x & Nx). exists x. split; auto.
      intros j C. destruct (counterpart_true _ _ _ _ C). congruence. }
  destruct (list_choice (value V) (fun j x =>
      (nth_error rout j = Some false -> nth_error outs j = Some x) /\
      (forall i, counterpart (fun b => b) rin i rout j -> nth_error ins i = Some x)) (length outs)) as (outs' & M' & HO).
  { intros j L. rewrite <- Lo in L. destruct (nth_ex _ _ _ L) as ([] & N).
    - destruct (CO _ N) as (i & C). destruct (counterpart_true _ _ _ _ C) as [Ni _].
      destruct (nth_ex _ ins i) as (x & Nx); [rewrite <- Li; apply nth_error_Some; congruence|].
      exists x. split; [congruence|]. intros i' C'.
      rewrite (counterpart_fun _ _ _ _ _ (counterpart_sym _ _ _ _ C') (counterpart_sym _ _ _ _ C)). auto.
    - rewrite Lo in L. destruct (nth_ex _ _ _ L) as (x & Nx). exists x. split; auto.
      intros i C. destruct (counterpart_true _ _ _ _ C). congruence. }
  exists ins', outs'.
  assert (Ex : exchanged rin rout ins outs ins' outs').
  { split; auto. split; auto. split; [|split].
    - intros i N. destruct (nth_error ins' i) as [x|] eqn:Q.
      + destruct (HI _ _ Q) as [A _]. symmetry. auto.
      + apply nth_error_None in Q. assert (i < length rin) by (apply nth_error_Some; congruence). lia.
    - intros i N. destruct (nth_error outs' i) as [x|] eqn:Q.
      + destruct (HO _ _ Q) as [A _]. symmetry. auto.
      + apply nth_error_None in Q. assert (i < length rout) by (apply nth_error_Some; congruence). lia.
    - intros i j C. destruct (counterpart_true _ _ _ _ C) as [Ni Nj].
      destruct (nth_ex _ ins' i) as (x & Nx); [rewrite L', <- Li; apply nth_error_Some; congruence|].
      destruct (nth_ex _ outs' j) as (y & Ny); [rewrite M', <- Lo; apply nth_error_Some; congruence|].
      destruct (HI _ _ Nx) as [_ A]. destruct (HO _ _ Ny) as [_ B]. rewrite (A _ C), (B _ C). auto. }
  split; auto.
  assert (F2 : forall row (vals : list (value V)), length row = length vals ->
    (forall i b x, nth_error row i = Some b -> nth_error vals i = Some x -> of_type b x) -> Forall2 of_type row vals).
  { clear. induction row as [|b row IH]; intros [|x vals] L H; try discriminate; constructor.
    - apply (H 0); auto.
    - apply IH; [simpl in L; lia|]. intros i. apply (H (S i)). }
  split; apply F2; try congruence.
  - intros i [] x N Nx; destruct (HI _ _ Nx) as [A B].
    + destruct (CI _ N) as (j & C). destruct (counterpart_true _ _ _ _ C) as [_ Nj].
      apply (Forall2_nth _ _ _ _ _ _ _ _ To Nj (B _ C)).
    + apply (Forall2_nth _ _ _ _ _ _ _ _ Ti N (A N)).
  - intros j [] x N Nx; destruct (HO _ _ Nx) as [A B].
    + destruct (CO _ N) as (i & C). destruct (counterpart_true _ _ _ _ C) as [Ni _].
      apply (Forall2_nth _ _ _ _ _ _ _ _ Ti Ni (B _ C)).
    + apply (Forall2_nth _ _ _ _ _ _ _ _ To N (A N)).
Qed.

(** ** Renaming *)

Definition ren (f : nat -> nat) (x : value V) : value V := match x with Qb q => Qb (f q) | Cl v => Cl v end.

Lemma ren_typed : forall f b x, of_type b x -> of_type b (ren f x).
Proof. intros f b [q|v] H; auto. Qed.

Lemma carries_rename : forall cl g ins outs val f, carries cl g ins outs val ->
  carries cl g (map (ren f) ins) (map (ren f) outs) (fun s => ren f (val s)).
Proof.
  intros cl g ins outs val f Ca.
  assert (Ar : forall t x, arrives g val t x -> arrives g (fun s => ren f (val s)) t (ren f x)).
  { intros t x (s & J & <-). exists s. auto. }
  constructor.
  - intros s b Hs. apply ren_typed. apply (ca_typed _ _ _ _ _ _ Ca). auto.
  - destruct (ca_ins _ _ _ _ _ _ Ca) as [L A]. rewrite map_length. split; auto.
    intros i x N. rewrite nth_error_map in N. destruct (nth_error ins i) as [y|] eqn:Q; [|discriminate].
    simpl in N. injection N as <-. rewrite (A _ _ Q). auto.
  - destruct (ca_outs _ _ _ _ _ _ Ca) as [L A]. rewrite map_length. split; auto.
    intros i x N. rewrite nth_error_map in N. destruct (nth_error outs i) as [y|] eqn:Q; [|discriminate].
    simpl in N. injection N as <-. apply Ar. auto.
  - intros k o d n No i L. apply Ar. apply (ca_gate _ _ _ _ _ _ Ca k o d n); auto.
  - intros k l i0 u0 No. destruct (ca_copied _ _ _ _ _ _ Ca _ _ _ _ No) as (vs & Lv & Vi & Vo).
    exists vs. split; auto. split.
    + intros i v N. apply (Ar _ (Cl v)). auto.
    + intros j L. rewrite (Vo _ L). auto.
Qed.

(** Names can be given to the outputs. *)
Lemma give_names : forall row (outs : list (value V)) (new : nat -> nat), Forall2 of_type row outs -> NoDup (names outs) ->
  exists f, forall j q, nth_error outs j = Some (Qb q) -> f q = new j.
Proof.
  induction row as [|b row IH]; intros outs new T N; inversion T; subst.
  - exists (fun q => q). intros [|j] q Q; discriminate.
  - destruct y as [q|v]; simpl in *.
    + apply NoDup_cons_iff in N. destruct N as [N1 N2].
      destruct (IH l' (fun j => new (S j)) H3 N2) as (f & Hf).
      exists (fun p => if Nat.eqb p q then new 0 else f p).
      intros [|j] p Q; simpl in Q.
      * injection Q as ->. rewrite Nat.eqb_refl. auto.
      * destruct (Nat.eqb_spec p q) as [->|]; [|apply Hf; auto].
        exfalso. apply N1. unfold names. apply in_flat_map. exists (Qb q). split; [apply nth_error_In in Q; auto|simpl; auto].
    + destruct (IH l' (fun j => new (S j)) H3 N) as (f & Hf). exists f.
      intros [|j] p Q; simpl in Q; [discriminate|]. apply Hf; auto.
Qed.

Lemma number_ports : forall row (ins : list (value V)) k, Forall2 of_type row ins -> exists ins0 : list (value V),
  Forall2 of_type row ins0 /\ NoDup (names ins0) /\ (forall q, In q (names ins0) -> k <= q) /\
  (forall i v, nth_error ins i = Some (Cl v) <-> nth_error ins0 i = Some (Cl v)).
Proof.
  induction row as [|b row IH]; intros ins k T; inversion T; subst.
  - exists []. split; auto. split; [constructor|]. split; [intros q []|]. intros [|i] v; simpl; tauto.
  - destruct (IH l' (S k) H3) as (ins0 & T0 & N0 & B0 & C0). destruct y as [q|v].
    + exists (Qb k :: ins0). split; [constructor; auto|]. simpl. split; [constructor; auto|].
      * intro J. specialize (B0 _ J). lia.
      * split; [intros p [<-|J]; auto; specialize (B0 _ J); lia|].
        intros [|i] v; simpl; [split; discriminate|]. apply C0.
    + exists (Cl v :: ins0). split; [constructor; auto|]. simpl. split; auto.
      split; [intros p J; specialize (B0 _ J); lia|].
      intros [|i] v'; simpl; [tauto|]. apply C0.
Qed.

Lemma dagger_cover : forall cl g order, wf g -> flat g -> topological g order ->
  reversible_rows (g_ins g) (g_outs g) ->
  forall ins' : list (value V), Forall2 of_type (g_ins g) ins' ->
  exists (ins outs : list (value V)) val outs', carries cl g ins outs val /\ exchanged (g_ins g) (g_outs g) ins outs ins' outs' /\
    Forall2 of_type (g_ins g) ins /\ Permutation (names ins') (names outs).
Proof.
  intros cl g order W Fl Tp R ins' Ti'.
  assert (Cls : forall k l i0 u0, In (k, Copied l i0 u0) (g_nodes g) -> forall b, In b (i0 ++ u0) -> b = false).
  { intros k l i0 u0 J. apply (Fl _ _ J). }
  destruct (number_ports _ _ 0 Ti') as (ins0 & T0 & N0 & _ & C0).
  destruct (run_exists g order W Tp V cl Cls ins0 T0) as (val & outs0 & Ca).
  pose proof (names_kept g order W Tp V cl _ _ _ Ca Cls) as P.
  assert (No : NoDup (names outs0)) by (apply (Permutation_NoDup (Permutation_sym P)); auto).
  assert (To : Forall2 of_type (g_outs g) outs0).
  { destruct (ca_outs _ _ _ _ _ _ Ca) as [L A].
    assert (F2 : forall row (vals : list (value V)), length row = length vals ->
      (forall i b x, nth_error row i = Some b -> nth_error vals i = Some x -> of_type b x) -> Forall2 of_type row vals).
    { clear. induction row as [|b row IH]; intros [|x vals] L H; try discriminate; constructor.
      - apply (H 0); auto.
      - apply IH; [simpl in L; lia|]. intros i. apply (H (S i)). }
    apply F2; auto. intros i b x N Nx. destruct (A _ _ Nx) as (s & J & <-).
    destruct (wf_typed g W _ _ J) as (b' & Hs & Ht). unfold target in Ht. simpl in Ht.
    assert (b' = b) by congruence. subst b'. apply (ca_typed _ _ _ _ _ _ Ca). auto. }
  destruct (counterpart_out _ _ R) as [CI CO].
  destruct (list_choice nat (fun j q => forall i, counterpart (fun b => b) (g_ins g) i (g_outs g) j ->
      nth_error ins' i = Some (Qb q)) (length (g_outs g))) as (new & Ln & Hn).
  { intros j L. destruct (nth_ex _ _ _ L) as ([] & N).
    - destruct (CO _ N) as (i & C). destruct (counterpart_true _ _ _ _ C) as [Ni _].
      destruct (nth_ex _ ins' i) as (x & Nx); [rewrite <- (Forall2_len _ _ _ _ _ Ti'); apply nth_error_Some; congruence|].
      pose proof (Forall2_nth _ _ _ _ _ _ _ _ Ti' Ni Nx) as T. destruct x as [q|]; [|discriminate].
      exists q. intros i' C'. rewrite (counterpart_fun _ _ _ _ _ (counterpart_sym _ _ _ _ C') (counterpart_sym _ _ _ _ C)). auto.
    - exists 0. intros i C. destruct (counterpart_true _ _ _ _ C). congruence. }
  destruct (give_names _ outs0 (fun j => nth j new 0) To No) as (f & Hf).
  pose proof (carries_rename _ _ _ _ _ f Ca) as Cf.
  assert (Tif : Forall2 of_type (g_ins g) (map (ren f) ins0)).
  { clear - T0. induction T0; simpl; constructor; auto. apply ren_typed. auto. }
  assert (Tof : Forall2 of_type (g_outs g) (map (ren f) outs0)).
  { clear - To. induction To; simpl; constructor; auto. apply ren_typed. auto. }
  destruct (exchanged_exists _ _ _ _ R Tif Tof) as (ins'' & outs' & Ex & Ti'' & To').
  assert (E : ins'' = ins').
  { apply nth_eq; [rewrite <- (Forall2_len _ _ _ _ _ Ti''), <- (Forall2_len _ _ _ _ _ Ti'); auto|].
    intros i x y Nx Ny. destruct Ex as (_ & _ & A & _ & B).
    assert (Li : i < length (g_ins g)) by (rewrite (Forall2_len _ _ _ _ _ Ti'); apply nth_error_Some; congruence).
    destruct (nth_ex _ _ _ Li) as ([] & N).
    - destruct (CI _ N) as (j & C). destruct (B _ _ C) as [B1 _]. rewrite Nx, nth_error_map in B1.
      destruct (nth_error outs0 j) as [z|] eqn:Qz; [|discriminate]. simpl in B1. injection B1 as ->.
      destruct (counterpart_true _ _ _ _ C) as [_ Nj]. pose proof (Forall2_nth _ _ _ _ _ _ _ _ To Nj Qz) as Tz.
      destruct z as [q|]; [|discriminate]. simpl. rewrite (Hf _ _ Qz).
      assert (Lj : j < length new) by (rewrite Ln; apply nth_error_Some; congruence).
      destruct (nth_ex _ _ _ Lj) as (q' & Nq'). rewrite (nth_error_nth _ _ _ Nq').
      specialize (Hn _ _ Nq' i C). congruence.
    - rewrite (A _ N), nth_error_map in Nx. pose proof (Forall2_nth _ _ _ _ _ _ _ _ Ti' N Ny) as Ty.
      destruct y as [|v]; [discriminate|]. apply C0 in Ny. rewrite Ny in Nx. simpl in Nx. congruence. }
  subst ins''. exists (map (ren f) ins0), (map (ren f) outs0), (fun s => ren f (val s)), outs'.
  split; auto. split; auto. split; auto.
  (* the names *)
  assert (Nt : forall row (vals : list (value V)), Forall2 of_type row vals ->
    names vals = map (fun i => qname V (nth i vals (Qb 0))) (trues row)).
  { intros row vals F. apply (names_trues V row vals (fun i => nth i vals (Qb 0))).
    - symmetry. apply (Forall2_len _ _ _ _ _ F).
    - intros i x N. apply nth_error_nth. auto.
    - intros i b N. assert (Li : i < length vals) by (rewrite <- (Forall2_len _ _ _ _ _ F); apply nth_error_Some; congruence).
      destruct (nth_ex _ _ _ Li) as (x & Nx). rewrite (nth_error_nth _ _ _ Nx). apply (Forall2_nth _ _ _ _ _ _ _ _ F N Nx). }
  rewrite (Nt _ _ Ti'), (Nt _ _ Tof).
  destruct Ex as (_ & _ & _ & _ & B).
  destruct (list_choice nat (fun i j => nth_error (g_ins g) i = Some true -> counterpart (fun b => b) (g_ins g) i (g_outs g) j)
             (length (g_ins g))) as (h & Lh & Hh).
  { intros i L. destruct (nth_ex _ _ _ L) as ([] & N).
    - destruct (CI _ N) as (j & C). exists j. auto.
    - exists 0. congruence. }
  assert (Hc : forall i, nth_error (g_ins g) i = Some true -> counterpart (fun b => b) (g_ins g) i (g_outs g) (nth i h 0)).
  { intros i N. assert (L : i < length h) by (rewrite Lh; apply nth_error_Some; congruence).
    destruct (nth_ex _ _ _ L) as (j & Nj). rewrite (nth_error_nth _ _ _ Nj). apply (Hh _ _ Nj N). }
  transitivity (map (fun j => qname V (nth j (map (ren f) outs0) (Qb 0))) (map (fun i => nth i h 0) (trues (g_ins g)))).
  - rewrite map_map. rewrite (map_ext_in _ (fun i => qname V (nth (nth i h 0) (map (ren f) outs0) (Qb 0)))); auto.
    intros i J. apply trues_in in J. destruct (B _ _ (Hc _ J)) as [B1 _].
    assert (L : i < length ins') by (rewrite <- (Forall2_len _ _ _ _ _ Ti'); apply nth_error_Some; congruence).
    destruct (nth_ex _ _ _ L) as (x & Nx). rewrite (nth_error_nth _ _ _ Nx).
    rewrite Nx in B1. rewrite (nth_error_nth _ _ _ (eq_sym B1)). auto.
  - apply Permutation_map. apply NoDup_Permutation.
    + apply NoDup_map_in; [|apply trues_nd]. intros x y Jx Jy Q. apply trues_in in Jx. apply trues_in in Jy.
      pose proof (Hc _ Jx) as Cx. pose proof (Hc _ Jy) as Cy. rewrite Q in Cx.
      apply (counterpart_fun _ _ _ _ _ (counterpart_sym _ _ _ _ Cx) (counterpart_sym _ _ _ _ Cy)).
    + apply trues_nd.
    + intro j. rewrite in_map_iff, trues_in. split.
      * intros (i & <- & J). apply trues_in in J. apply (counterpart_true _ _ _ _ (Hc _ J)).
      * intro N. destruct (CO _ N) as (i & C). exists i. destruct (counterpart_true _ _ _ _ C) as [Ni _]. split; [|apply trues_in; auto].
        apply (counterpart_fun _ _ _ _ _ (Hc _ Ni) C).
Qed.
End Values.
