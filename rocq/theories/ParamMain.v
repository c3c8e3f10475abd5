(** Proofs of the properties of parameter expressions: C33, C34, C50, C51 and C52. *)
From Coq Require Import List Bool Arith ZArith String Ascii Lia.
From Verif Require Import ParamModel ParamSpec ParamProofs ParamPeg ParamTotal ParamLoad ParamFine ParamNumbers.
Import ListNotations.
Local Open Scope list_scope.

Lemma C34_partial_pf :
  forall K inputs sympy, laws K ->
  forall w1 c w2 hint, blank w1 -> blank w2 -> grammatical c -> plain c -> bounded K c ->
  exists l, load_half_turns_parameter K inputs sympy (w1 ++ show c ++ w2) hint = Some l /\ angle K l = meaning K (fun x => angle K (inputs x)) sympy c.
Proof.
  intros K inputs sympy L w1 c w2 hint B1 B2 G P B. apply (load_ok K inputs sympy L); assumption.
Qed.

Lemma C34_refuted_pf :
  exists K inputs sympy, laws K /\
  forall c, In c [power_tower; minus_power; minus_number] ->
    grammatical c /\ bounded K c /\
    exists l, load_half_turns_parameter K inputs sympy (show c) None = Some l /\ angle K l <> meaning K (fun x => angle K (inputs x)) sympy c.
Proof.
  exists Znumbers, (fun _ => (FloatHalfTurns, 3%Z)), (fun _ => 0%Z). split; [exact Zlaws|]. intros c J. split; [|split].
  - apply bad_grammatical. exact J.
  - destruct J as [<-|[<-|[<-|[]]]]; cbn; auto.
  - destruct J as [<-|[<-|[<-|[]]]]; (eexists; split; [vm_compute; reflexivity|vm_compute; discriminate]).
Qed.

Lemma C33_partial_pf :
  forall K inputs sympy, laws K -> one_laws K ->
  forall e hint, encodable K (fun x => angle K (inputs x)) sympy e ->
  exists l, load_half_turns_parameter K inputs sympy (encode K e) hint = Some l /\ angle K l = feval K (fun x => angle K (inputs x)) sympy e.
Proof.
  intros K inputs sympy L O e hint E. destruct (encode_says K (fun x => angle K (inputs x)) sympy L O e E) as (c & Es & G & P & B & <-). rewrite Es. assert (X := load_ok K inputs sympy L [] c [] hint (Forall_nil _) (Forall_nil _) G P B). cbn [app] in X. rewrite app_nil_r in X. exact X.
Qed.

Lemma C33_refuted_pf :
  (exists K inputs sympy v l, laws K /\ one_laws K /\ printable K v /\
     load_half_turns_parameter K inputs sympy (encode K (FConst K v)) None = Some l /\ angle K l <> v) /\
  (exists K inputs sympy v l, laws K /\ one_laws K /\ to_text K v = lit "inf" /\
     load_half_turns_parameter K inputs sympy (encode K (FConst K v)) None = Some l /\ l = inputs (lit "inf") /\ angle K l <> v) /\
  (exists K inputs sympy l, laws K /\ one_laws K /\
     load_half_turns_parameter K inputs sympy (encode K (FInput K (lit "pi"))) None = Some l /\ angle K l <> angle K (inputs (lit "pi"))).
Proof.
  split; [|split].
  - exists Znumbers, (fun _ => (FloatHalfTurns, 5%Z)), (fun _ => 0%Z), 8%Z. eexists. split; [exact Zlaws|]. split; [exact Zone|]. split; [apply Zprintable; lia|]. split; [vm_compute; reflexivity|vm_compute; discriminate].
  - exists Znumbers, (fun _ => (FloatHalfTurns, 5%Z)), (fun _ => 0%Z), 100%Z. eexists. split; [exact Zlaws|]. split; [exact Zone|]. split; [reflexivity|]. split; [vm_compute; reflexivity|]. split; [reflexivity|vm_compute; discriminate].
  - exists Znumbers, (fun _ => (FloatHalfTurns, 5%Z)), (fun _ => 0%Z). eexists. split; [exact Zlaws|]. split; [exact Zone|]. split; [vm_compute; reflexivity|vm_compute; discriminate].
Qed.

Lemma C50_partial_pf :
  forall K inputs sympy s hint, finite K (pi K) = true ->
  (parameter s = Fail -> load_half_turns_parameter K inputs sympy s hint = Some (Rotation, sympy s)) /\
  (forall p r, parameter s = Match p r -> sensible K p -> load_half_turns_parameter K inputs sympy s hint <> None) /\
  parameter s <> Fuel.
Proof.
  intros K inputs sympy s hint F. unfold load_half_turns_parameter, parse_pytket_param. split; [|split].
  - intros ->. reflexivity.
  - intros p r -> S. apply (fine K inputs sympy F p S).
  - intros E. assert (X := parameter_total s). rewrite E in X. exact X.
Qed.

Lemma C50_refuted_pf :
  (forall K inputs sympy hint s, In s [lit "max(1)"; lit "abs(1,2)"; lit "min()"; lit "round(x, y, z)"; lit "2*floor()"] ->
     load_half_turns_parameter K inputs sympy s hint = None) /\
  (forall K inputs sympy, finite K (of_text K (lit "1e999")) = false -> load_half_turns_parameter K inputs sympy (lit "1e999") None = None).
Proof.
  split.
  - intros K inputs sympy hint s J. repeat (destruct J as [<-|J]; [unfold load_half_turns_parameter; match goal with |- context [parse_pytket_param ?x] => let v := eval vm_compute in (parse_pytket_param x) in replace (parse_pytket_param x) with v by (vm_compute; reflexivity) end; cbn [process]; unfold constant; cbn [lit list_ascii_of_string with_type]; repeat (destruct (list_eq_dec ascii_dec _ _); [discriminate|]); reflexivity|]). destruct J.
  - intros K inputs sympy F. unfold load_half_turns_parameter. replace (parse_pytket_param (lit "1e999")) with (Constant (lit "1e999")) by (vm_compute; reflexivity). cbn [process]. unfold constant. rewrite F. reflexivity.
Qed.

Lemma C51_pf :
  forall s, match parameter s with
            | Fuel => False
            | Fail => parse_pytket_param s = Sympy s
            | Match p r => r = [] /\ exists w1 a w2, blank w1 /\ blank w2 /\ s = w1 ++ a ++ w2 /\ derives_expr p a
            end /\
  forall first rest, exists p, pratt (2 * List.length rest + 1) 0 first rest = Some (p, []).
Proof.
  intros s. split; [|apply pratt_all]. assert (X := parameter_total s). unfold parse_pytket_param. destruct (parameter s); [exact X|reflexivity|exact X].
Qed.

Lemma C52_pf :
  forall cs free n st ws,
    Forall (fun c => grammatical c /\ plain c) cs -> NoDup free -> (forall w, In w free -> w < n) ->
    load_all {| known := []; unused := free; added := n |} (map show cs) = (st, ws) ->
    List.length ws = List.length (flat_map names cs) /\
    (forall i j x y v w, nth_error (flat_map names cs) i = Some x -> nth_error (flat_map names cs) j = Some y -> nth_error ws i = Some v -> nth_error ws j = Some w -> (x = y <-> v = w)) /\
    map fst (known st) = distinct [] (flat_map names cs) /\
    map snd (known st) ++ unused st = free ++ seq n (added st - n).
Proof.
  intros cs free n st ws G N B H. unfold load_all in H. rewrite (lookups_all cs G) in H.
  assert (S0 : sound_inputs {| known := []; unused := free; added := n |}) by (constructor; [constructor|exact N|exact B]). destruct (inputs_ok _ _ S0 _ _ H) as (S1 & M & _). destruct (inputs_order _ _ _ _ H) as (A & _ & C). split; [clear - M; induction M; simpl; congruence|]. split; [|split; [exact A|exact C]].
  intros i j x y v w X Y V W. assert (Q : forall l (vs : list wire) k a b, Forall2 (maps st) l vs -> nth_error l k = Some a -> nth_error vs k = Some b -> maps st a b).
  { clear. induction l as [|z l IH]; intros vs k a b F A B; inversion F; subst; [destruct k; discriminate|]. destruct k; cbn in *; [congruence|eapply IH; eauto]. }
  apply (maps_one st x y v w S1); [apply (Q _ _ i _ _ M X V)|apply (Q _ _ j _ _ M Y W)].
Qed.

