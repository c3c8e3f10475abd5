(** Properties of parameter expressions: C33, C34, C50, C51 and C52. *)
From Coq Require Import List Bool Arith ZArith String Ascii Lia.
From Verif Require Import ParamModel ParamSpec ParamProofs ParamPeg ParamTotal ParamLoad ParamFine ParamNumbers ParamMain.
Import ListNotations.
Local Open Scope list_scope.

(** ** C34. Every expression that Python reads, without a power directly under a minus sign or in the exponent of another
    power, is loaded with the value that Python gives it. *)
Theorem C34_partial :
  forall K inputs sympy, laws K ->
  forall w1 c w2 hint, blank w1 -> blank w2 -> grammatical c -> plain c -> bounded K c ->
  exists l, load_half_turns_parameter K inputs sympy (w1 ++ show c ++ w2) hint = Some l /\ angle K l = meaning K (fun x => angle K (inputs x)) sympy c.
Proof. exact C34_partial_pf. Qed.

(** ** C34, where the two restrictions are necessary: 2**3**2 is read as (2**3)**2, and -x**2 as (-x)**2, for a variable
    and for a number. *)
Theorem C34_refuted :
  exists K inputs sympy, laws K /\
  forall c, In c [power_tower; minus_power; minus_number] ->
    grammatical c /\ bounded K c /\
    exists l, load_half_turns_parameter K inputs sympy (show c) None = Some l /\ angle K l <> meaning K (fun x => angle K (inputs x)) sympy c.
Proof. exact C34_refuted_pf. Qed.

(** ** C33. What is encoded is loaded with the same value, where constants that are taken for a fraction of pi are equal
    to it, constants are finite, and no variable is called pi. *)
Theorem C33_partial :
  forall K inputs sympy, laws K -> one_laws K ->
  forall e hint, encodable K (fun x => angle K (inputs x)) sympy e ->
  exists l, load_half_turns_parameter K inputs sympy (encode K e) hint = Some l /\ angle K l = feval K (fun x => angle K (inputs x)) sympy e.
Proof. exact C33_partial_pf. Qed.

(** ** C33, where these are necessary: a constant near pi becomes pi, an infinite one a variable called inf, and a
    variable called pi a constant. *)
Theorem C33_refuted :
  (exists K inputs sympy v l, laws K /\ one_laws K /\ printable K v /\
     load_half_turns_parameter K inputs sympy (encode K (FConst K v)) None = Some l /\ angle K l <> v) /\
  (exists K inputs sympy v l, laws K /\ one_laws K /\ to_text K v = lit "inf" /\
     load_half_turns_parameter K inputs sympy (encode K (FConst K v)) None = Some l /\ l = inputs (lit "inf") /\ angle K l <> v) /\
  (exists K inputs sympy l, laws K /\ one_laws K /\
     load_half_turns_parameter K inputs sympy (encode K (FInput K (lit "pi"))) None = Some l /\ angle K l <> angle K (inputs (lit "pi"))).
Proof. exact C33_refuted_pf. Qed.

(** ** C50. Loading any string at all does not panic, if functions that are known are called with the right number of
    arguments, and numbers are finite. What is not in the grammar is left to sympy, as it is. *)
Theorem C50_partial :
  forall K inputs sympy s hint, finite K (pi K) = true ->
  (parameter s = Fail -> load_half_turns_parameter K inputs sympy s hint = Some (Rotation, sympy s)) /\
  (forall p r, parameter s = Match p r -> sensible K p -> load_half_turns_parameter K inputs sympy s hint <> None) /\
  parameter s <> Fuel.
Proof. exact C50_partial_pf. Qed.

(** ** C50, where it panics: a known function with another number of arguments, for every way to compute with numbers;
    a number that is not finite, where a rotation is needed. *)
Theorem C50_refuted :
  (forall K inputs sympy hint s, In s [lit "max(1)"; lit "abs(1,2)"; lit "min()"; lit "round(x, y, z)"; lit "2*floor()"] ->
     load_half_turns_parameter K inputs sympy s hint = None) /\
  (forall K inputs sympy, finite K (of_text K (lit "1e999")) = false -> load_half_turns_parameter K inputs sympy (lit "1e999") None = None).
Proof. exact C50_refuted_pf. Qed.

(** ** C51. What is read is what is written: a string that is accepted is, up to white space at the ends, one that the
    result is derived from in the grammar, and all operators are used. *)
Theorem C51 :
  forall s, match parameter s with
            | Fuel => False
            | Fail => parse_pytket_param s = Sympy s
            | Match p r => r = [] /\ exists w1 a w2, blank w1 /\ blank w2 /\ s = w1 ++ a ++ w2 /\ derives_expr p a
            end /\
  forall first rest, exists p, pratt (2 * List.length rest + 1) 0 first rest = Some (p, []).
Proof. exact C51_pf. Qed.

(** ** C52. The parameters of a circuit: over all expressions of the circuit, equal names have equal wires and different
    names different ones; names are in the order of first use, and take the inputs that are there first. *)
Theorem C52 :
  forall cs free n st ws,
    Forall (fun c => grammatical c /\ plain c) cs -> NoDup free -> (forall w, In w free -> w < n) ->
    load_all {| known := []; unused := free; added := n |} (map show cs) = (st, ws) ->
    List.length ws = List.length (flat_map names cs) /\
    (forall i j x y v w, nth_error (flat_map names cs) i = Some x -> nth_error (flat_map names cs) j = Some y -> nth_error ws i = Some v -> nth_error ws j = Some w -> (x = y <-> v = w)) /\
    map fst (known st) = distinct [] (flat_map names cs) /\
    map snd (known st) ++ unused st = free ++ seq n (added st - n).
Proof. exact C52_pf. Qed.

(** ** Instances *)
Definition example : written :=
  CInfix Subtract (CInfix Add (CNum (lit "2")) (lit " ") (lit " ") (CInfix Multiply (CImplicit (lit "3") [] (CVar (lit "x"))) [] [] (CInfix Power (CParen [] (CNeg [] (CVar (lit "y"))) []) [] [] (CNeg [] (CNum (lit "2"))))))
    [] (lit " ") (CCall2 (lit "max") [] [] (CVar (lit "x")) [] (lit " ") (CNeg (lit " ") (CImplicit (lit "2") (lit " ") (CCall1 (lit "abs") [] [] (CVar (lit "y_1")) [])))  []).
Lemma example_ok : show example = lit "2 + 3x*(-y)**-2- max(x, - 2 abs(y_1))" /\ grammatical example /\ plain example /\ bounded Znumbers example.
Proof.
  assert (V : forall s, match s with [] => False | _ => forallb (fun c => existsb (Ascii.eqb c) (lit "abcdefghijklmnopqrstuvwxyzABCDEFGHIJKLMNOPQRSTUVWXYZ")) s = true end -> name s) by (exact letters_name). assert (B0 : blank []) by constructor. assert (B1 := blank_one). assert (Nu : forall d, digit d -> number [d]) by (intros d; apply (number_ok [d])). assert (Y1 : name (lit "y_1")). { exists "y"%char, (lit "_1"). split; [reflexivity|]. split; [cbn; tauto|]. constructor; [right; right; reflexivity|]. constructor; [right; left; cbn; tauto|constructor]. }
  split; [reflexivity|]. split; [|split; cbn; repeat split; auto; try discriminate; lia].
  cbn [grammatical example strength standalone]. repeat match goal with |- _ /\ _ => split | |- blank _ => assumption | |- number _ => apply Nu; cbn; tauto | |- name (lit "y_1") => exact Y1 | |- name _ => apply V; reflexivity | |- True => exact I | |- _ <= _ => lia | |- forall o n, _ => let H := fresh in intros ? ? H; vm_compute in H; congruence | |- _ = [] -> _ => let H := fresh in intros H; try discriminate H; intros ?; split; discriminate end.
Qed.
Example C34_used : exists l, load_half_turns_parameter Znumbers (fun _ => (FloatHalfTurns, 5%Z)) (fun _ => 0%Z) (show example) None = Some l /\ angle Znumbers l = meaning Znumbers (fun _ => 5%Z) (fun _ => 0%Z) example.
Proof. destruct example_ok as (_ & G & P & B). assert (X := C34_partial Znumbers (fun _ => (FloatHalfTurns, 5%Z)) (fun _ => 0%Z) Zlaws [] example [] None (Forall_nil _) (Forall_nil _) G P B). cbn [app] in X. rewrite app_nil_r in X. exact X. Qed.
Definition encoded : fexpr Znumbers :=
  FBinary Znumbers fsub (FBinary Znumbers fmul (FConst Znumbers 1%Z) (FUnary Znumbers fneg (FInput Znumbers (lit "x")))) (FBinary Znumbers fmax (FConst Znumbers 7%Z) (FConst Znumbers (-2)%Z)).
Lemma encoded_ok : encode Znumbers encoded = lit "(-(x)) - (max(pi/4, -2))" /\ encodable Znumbers (fun _ => 5%Z) (fun _ => 0%Z) encoded.
Proof.
  split; [vm_compute; reflexivity|]. cbn [encodable encoded]. assert (X : name (lit "x") /\ lit "x" <> lit "pi") by (split; [apply letters_name; reflexivity|discriminate]).
  assert (E : forall v, In v [1%Z; 7%Z; (-2)%Z] -> exact Znumbers v). { intros v J w s Jw N. unfold vals in Jw. cbn [In] in J, Jw. repeat (destruct J as [<-|J]; [repeat (destruct Jw as [Q|Jw]; [injection Q as <- <-; vm_compute in N; try discriminate N; reflexivity|]); destruct Jw|]). destruct J. }
  assert (Q : forall v, In v [1%Z; 7%Z; (-2)%Z] -> printable Znumbers v /\ exact Znumbers v). { intros v J. split; [|apply E; exact J]. apply Zprintable. cbn [In] in J. lia. }
  split; [split; [apply Q; cbn; auto|exact X]|split; apply Q; cbn; auto].
Qed.
Example C33_used : exists l, load_half_turns_parameter Znumbers (fun _ => (FloatHalfTurns, 5%Z)) (fun _ => 0%Z) (lit "(-(x)) - (max(pi/4, -2))") None = Some l /\ angle Znumbers l = (-12)%Z.
Proof. destruct encoded_ok as [<- E]. exact (C33_partial Znumbers (fun _ => (FloatHalfTurns, 5%Z)) (fun _ => 0%Z) Zlaws Zone encoded None E). Qed.
Example C50_used : exists p r, parameter (lit "2 max(x, -1) + f(y,)") = Match p r /\ sensible Znumbers p.
Proof.
  eexists. eexists. split; [vm_compute; reflexivity|]. apply s_expr.
  - apply s_implicit; [reflexivity|]. apply (s_known _ _ _ _ Fmax); [reflexivity|]. constructor; [|constructor; [|constructor]]; (apply s_expr; [|constructor]); [apply s_ident|apply s_num; reflexivity].
  - constructor; [|constructor]. apply s_unknown. reflexivity.
Qed.
Example C50_outside : parameter (lit "2 +") = Fail /\ parameter (lit "x^2") = Fail /\ parameter (lit ".5") = Fail.
Proof. vm_compute. auto. Qed.
Example C51_used : exists p, parameter (lit " 2 x*-3 ") = Match p [].
Proof. eexists. vm_compute. reflexivity. Qed.
Example C52_used : exists st, load_all {| known := []; unused := [7; 5]; added := 9 |} (map show [example; CVar (lit "z"); CVar (lit "y")]) = (st, [7; 5; 7; 9; 10; 5]) /\ Forall (fun c => grammatical c /\ plain c) [example; CVar (lit "z"); CVar (lit "y")].
Proof.
  eexists. split; [vm_compute; reflexivity|]. destruct example_ok as (_ & G & P & _). constructor; [auto|]. constructor; [split; [apply letters_name; reflexivity|exact I]|]. constructor; [split; [apply letters_name; reflexivity|exact I]|constructor].
Qed.

Print Assumptions C34_partial.
Print Assumptions C34_refuted.
Print Assumptions C33_partial.
Print Assumptions C33_refuted.
Print Assumptions C50_partial.
Print Assumptions C50_refuted.
Print Assumptions C51.
Print Assumptions C52.
