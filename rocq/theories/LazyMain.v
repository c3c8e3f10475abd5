(** Proofs of the properties of lazy measurements. *)
From Coq Require Import List Arith Bool Lia.
From Verif Require Import LazyModel LazySpec LazyProofs.
Import ListNotations.

Lemma C45_pf : forall (Q : Type) (measure measure_reset : nat -> Q -> bool * Q)
    (p : list (instr Q)) (outs : list nat) (inputs : list sumv) (bs natives : list bool) (q : Q) (fs : futures),
  Forall2 (stands_for fs) inputs bs ->
  owns fs inputs ->
  scoped (length inputs) p outs ->
  let s := src_run measure measure_reset p (Src bs natives q) in
  exists ws m,
    run_lowered measure measure_reset p outs inputs natives q fs = Some (ws, m) /\
    mnative m = native s /\ mq m = qstate s /\
    Forall2 (fun w x => exists b, nth_error (opaque s) x = Some b /\ stands_for (futs m) w b) ws outs /\
    Forall (fun copies => copies = []) (wires m) /\
    owns (futs m) ws.
Proof.
  intros Q me mr p outs inputs bs natives q fs F O Sc s.
  destruct (lowered_ok Q me mr p outs inputs bs natives q fs) as (ws & m & R & N & E & St & W & Ow); auto.
  - clear - F. induction F; simpl; auto.
  - clear - F. induction F; simpl; [tauto|]. intros w b [I|I]; [injection I as <- <-; auto|auto].
  - exists ws, m. split; auto. split; auto. split; auto. split; [|auto].
    assert (B : Forall (fun x => x < length (opaque s)) outs).
    { assert (L : length inputs = length (opaque (Src bs natives q))) by (clear - F; induction F; simpl in *; auto).
      rewrite L in Sc. unfold s. clear - Sc. revert Sc. generalize (Src bs natives q) as s0.
      induction p as [|i p IH]; intros s0 Sc; [exact Sc|].
      simpl. apply IH. apply (scoped_next Q me mr i p outs s0). auto. }
    clear - St B. fold s in St. induction St as [|w x ws outs H _ IH]; [constructor|].
    inversion B; subst. constructor; auto.
    exists (get (opaque s) x). split; auto. unfold get. rewrite (nth_error_nth' _ false); auto.
Qed.

Lemma C45_get_pf : forall arr idx fs others,
  owns fs (flat_map (fun c => match c with Some w => [w] | None => [] end) arr ++ others) ->
  (forall e b, nth_error arr idx = Some (Some e) -> stands_for fs e b ->
     exists r e' arr' fs',
       barray_get_dest arr idx fs = Some ((Some r, arr'), fs') /\
       stands_for fs' r b /\ nth_error arr' idx = Some (Some e') /\ stands_for fs' e' b /\
       length arr' = length arr /\
       (forall k, k <> idx -> nth_error arr' k = nth_error arr k) /\
       (forall w c, stands_for fs w c -> stands_for fs' w c) /\
       owns fs' (r :: flat_map (fun c => match c with Some w => [w] | None => [] end) arr' ++ others)) /\
  (length arr <= idx -> barray_get_dest arr idx fs = Some ((None, arr), fs)) /\
  (nth_error arr idx = Some None -> barray_get_dest arr idx fs = None).
Proof.
  intros arr idx fs others O. split; [|split].
  - intros e b E S0. apply bal_owns in O.
    destruct (barray_get_ok arr idx fs others e b O E S0) as (e1 & e2 & fs' & G & X & S1 & S2 & B).
    exists e2, e1, (firstn idx arr ++ Some e1 :: skipn (S idx) arr), fs'.
    assert (Hi : idx < length arr) by (apply nth_error_Some; congruence).
    split; auto. split; auto.
    assert (Lf : length (firstn idx arr) = idx) by (apply firstn_length_le; lia).
    split; [rewrite nth_error_app2 by lia; rewrite Lf, Nat.sub_diag; auto|]. split; auto.
    split; [rewrite app_length, Lf; cbn [length]; rewrite skipn_length; lia|].
    split; [|split; [intros w c; apply stands_ext; auto|apply bal_owns; auto]].
    intros k N. rewrite <- (firstn_skipn idx arr) at 3.
    destruct (Nat.lt_ge_cases k idx).
    + rewrite !nth_error_app1 by lia. auto.
    + rewrite !nth_error_app2 by lia. rewrite Lf.
      destruct (k - idx) as [|j] eqn:Z; [lia|]. simpl.
      replace (skipn idx arr) with (Some e :: skipn (S idx) arr); auto.
      clear - E. revert idx E. induction arr as [|a arr IH]; intros [|i] E; simpl in *; try discriminate.
      * injection E as ->. auto.
      * rewrite IH; auto.
  - intros L. unfold barray_get_dest. apply Nat.ltb_ge in L. rewrite L. auto.
  - intros E. unfold barray_get_dest.
    assert (Hi : idx < length arr) by (apply nth_error_Some; congruence).
    apply Nat.ltb_lt in Hi. rewrite Hi, E. auto.
Qed.

