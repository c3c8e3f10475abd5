(** Properties of lazy measurements. *)
From Coq Require Import List Arith Bool Lia.
From Verif Require Import LazyModel LazySpec LazyProofs LazyMain.
Import ListNotations.

(** ** C45: replacing opaque booleans and measurements

    For every program whose operands are made before they are used, and all inputs that
    stand for booleans: the lowered program runs without touching a dead handle; all
    native values it computes and the quantum state are those of the source program; its
    results stand for the values of the source; no copy of a wire is left over; and the
    handles that are still alive are exactly those in the results, once each -- every
    other handle that was ever made has been consumed. *)
Theorem C45 : forall (Q : Type) (measure measure_reset : nat -> Q -> bool * Q)
    (p : list (instr Q)) (outs : list nat) (inputs : list sumv) (bs natives : list bool) (q : Q) (fs : futures),
  Forall2 (stands_for fs) inputs bs ->
  owns fs inputs ->
  scoped (length inputs) p outs ->
  let s := src_run measure measure_reset p (Src bs natives q) in
  exists ws m,
    run_lowered measure measure_reset p outs inputs natives q fs = Some (ws, m) /\
    mnative m = native s /\ mq m = qstate s /\
    Forall2 (fun w x => exists b, nth_error (opaque s) x = Some b /\ stands_for (futs m) w b) ws outs /\
    Forall (fun copies => copies = []) (wires m) /\
    owns (futs m) ws.
Proof. exact C45_pf. Qed.

(** Reading an array inside its range gives a copy of the element and leaves the array as
    it was, up to the handle of the element; outside the range it gives nothing. *)
Theorem C45_get : forall arr idx fs others,
  owns fs (flat_map (fun c => match c with Some w => [w] | None => [] end) arr ++ others) ->
  (forall e b, nth_error arr idx = Some (Some e) -> stands_for fs e b ->
     exists r e' arr' fs',
       barray_get_dest arr idx fs = Some ((Some r, arr'), fs') /\
       stands_for fs' r b /\ nth_error arr' idx = Some (Some e') /\ stands_for fs' e' b /\
       length arr' = length arr /\
       (forall k, k <> idx -> nth_error arr' k = nth_error arr k) /\
       (forall w c, stands_for fs w c -> stands_for fs' w c) /\
       owns fs' (r :: flat_map (fun c => match c with Some w => [w] | None => [] end) arr' ++ others)) /\
  (length arr <= idx -> barray_get_dest arr idx fs = Some ((None, arr), fs)) /\
  (nth_error arr idx = Some None -> barray_get_dest arr idx fs = None).
Proof. exact C45_get_pf. Qed.

(** ** Instances *)

(** Two qubits measured, the first result used three times, once inverted and read, the
    input (a future) never used. *)
Definition toy_measure (k : nat) (q : list bool) : bool * list bool := (nth k q false, q).

Definition program : list (instr (list bool)) :=
  [IMeasure 0; IMeasureReset 1; IBin Bxor 1 2; INot 1; IRead 3; IMakeOpaque 0; ILoad true;
   IQuant (fun ns q => (map negb ns, ns ++ q)) [0]].

Example C45_instance : scoped 1 program [1; 4; 6] /\ owns [(true, true)] [Later 0] /\
  Forall2 (stands_for [(true, true)]) [Later 0] [true].
Proof.
  split; [|split].
  - simpl. repeat (split; [lia|]). repeat constructor; lia.
  - split; [repeat constructor; simpl; tauto|]. intros h. simpl. unfold alive. split.
    + intros [<-|[]]. exists true. auto.
    + intros (b & E). destruct h; auto. destruct h; discriminate.
  - repeat constructor. simpl. eauto.
Qed.

Example C45_instance_result :
  match run_lowered toy_measure toy_measure program [1; 4; 6] [Later 0] [] [true; false] [(true, true)] with
  | Some (ws, m) => ws = [Later 5; Now false; Now true] /\ mnative m = [true; false] /\ mq m = [true; true; false] /\
      nth_error (futs m) 5 = Some (true, true)
  | None => False
  end.
Proof. vm_compute. auto. Qed.

Print Assumptions C45.
Print Assumptions C45_get.
