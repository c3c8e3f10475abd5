(** Operators, evaluation, and encoding. *)
From Coq Require Import List Bool Arith String Ascii Lia.
From Verif Require Import ParamModel ParamSpec ParamProofs ParamPeg.
Import ListNotations.
Local Open Scope list_scope.

Fixpoint ast (c : written) : param :=
  match c with
  | CNum s => Constant s
  | CVar x => InputVariable x
  | CParen _ c _ => ast c
  | CCall1 f _ _ a _ => match known_function f with Some o => Operation o [ast a] FloatHalfTurns | None => Sympy (show c) end
  | CCall2 f _ _ a _ _ b _ => match known_function f with Some o => Operation o [ast a; ast b] FloatHalfTurns | None => Sympy (show c) end
  | CImplicit n _ c => Operation Fmul [Constant n; ast c] FloatHalfTurns
  | CNeg w c =>
      match w, c with
      | [], CNum s => Constant ("-"%char :: s)
      | [], CImplicit n _ c' => Operation Fmul [Constant ("-"%char :: n); ast c'] FloatHalfTurns
      | _, _ => Operation Fneg [ast c] FloatHalfTurns
      end
  | CInfix o a _ _ b => node o (ast a) (ast b)
  end.
Definition lv (c : written) : nat := match c with CInfix o _ _ _ _ => precedence o | _ => 40 end.
Definition start (c : written) : param := parse_term (fst (fl c)).
Definition more (c : written) : list (infix * param) := map (fun '(o, t) => (o, parse_term t)) (snd (fl c)).
Definition pratts (c : written) : Prop := forall rbp ops res, rbp < lv c -> match ops with [] => True | (o, _) :: _ => precedence o <= lv c end ->
  (forall f, length ops + 1 <= f -> pratt f rbp (ast c) ops = res) -> forall fuel, length (more c ++ ops) + 1 <= fuel -> pratt fuel rbp (start c) (more c ++ ops) = res.
Lemma pratts_end : forall c, pratts c -> forall fuel, length (more c) + 1 <= fuel -> pratt fuel 0 (start c) (more c) = Some (ast c, []).
Proof.
  intros c P fuel L. rewrite <- (app_nil_r (more c)). apply P; [destruct c; simpl; try lia; destruct o; simpl; lia|exact I| |rewrite app_nil_r; exact L]. intros [|f] Lf; [lia|reflexivity].
Qed.
Lemma pratts_single : forall c, single c -> pratts c -> start c = ast c.
Proof. intros c S P. assert (X := pratts_end c P 1). unfold more in X. rewrite (single_rest c S) in X. specialize (X (le_n 1)). simpl in X. congruence. Qed.
Lemma pratts_flat : forall c, single c -> start c = ast c -> pratts c.
Proof. intros c S E rbp ops res _ _ H fuel L. unfold more in *. rewrite (single_rest c S) in *. rewrite E. apply H. exact L. Qed.
Lemma standalone_single : forall c, standalone c -> single c.
Proof. intros [] H; try exact I; destruct H. Qed.
Lemma more_length : forall c, length (more c) = length (snd (fl c)).
Proof. intros c. unfold more. apply map_length. Qed.
Theorem pratt_ok : forall c, grammatical c -> plain c -> pratts c.
Proof.
  assert (EX : forall c, pratts c -> parse_term (Expr (fst (fl c)) (snd (fl c))) = ast c). { intros c P. cbn [parse_term]. unfold parse_infix_ops. fold (start c). change (map (fun '(o, t) => (o, parse_term t)) (snd (fl c))) with (more c). rewrite (pratts_end c P); [reflexivity|lia]. }
  induction c as [n|x|w1 c IH w2|f w0 w1 a IH w2|f w0 w1 a IHa w2 w3 b IHb w4|n w c IH|w c IH|o a IHa w1 w2 b IHb]; intros G P; try (apply pratts_flat; [exact I|]).
  - reflexivity.
  - reflexivity.
  - unfold start. cbn [fl fst]. rewrite (EX c); [reflexivity|]. apply IH; [apply G|exact P].
  - assert (E := EX a (IH (proj1 (proj2 (proj2 (proj2 (proj2 G))))) P)). unfold start. cbn [fl fst]. remember (Expr (fst (fl a)) (snd (fl a))) as e. cbn [parse_term map]. rewrite E. reflexivity.
  - assert (Ga : grammatical a) by apply G. assert (Gb : grammatical b) by apply G. destruct P as [Pa Pb]. assert (Ea := EX a (IHa Ga Pa)). assert (Eb := EX b (IHb Gb Pb)). unfold start. cbn [fl fst]. remember (Expr (fst (fl a)) (snd (fl a))) as e. remember (Expr (fst (fl b)) (snd (fl b))) as e'. cbn [parse_term map]. rewrite Ea, Eb. reflexivity.
  - unfold start. cbn [fl fst parse_term]. fold (start c). rewrite (pratts_single c); [reflexivity|apply standalone_single; apply G|]. apply IH; [apply G|exact P].
  - destruct G as (B & Gc & St). destruct P as [Pc N4]. assert (Pr := IH Gc Pc). assert (Sg := single_strength c St N4). assert (E := pratts_single c Sg Pr).
    assert (D : start (CNeg w c) = ast (CNeg w c) \/ start (CNeg w c) = Operation Fneg [start c] FloatHalfTurns /\ ast (CNeg w c) = Operation Fneg [ast c] FloatHalfTurns).
    { destruct w as [|x w]; [|right; split; reflexivity]. destruct c; try (right; split; reflexivity); left; [reflexivity|]. unfold start in E. cbn [fl fst parse_term ast] in E. injection E as E. unfold start. cbn [fl fst parse_term ast]. rewrite E. reflexivity. }
    destruct D as [D|[D1 D2]]; [exact D|]. rewrite D1, D2, E. reflexivity.
  - destruct G as (Ga & Gb & _ & _ & O). destruct P as (Pa & Pb & N4). specialize (IHa Ga Pa). specialize (IHb Gb Pb). intros rbp ops res L Hd H fuel Lf. cbn [lv] in *.
    assert (La : precedence o <= lv a /\ precedence o < lv b).
    { destruct o; destruct a as [| | | | | | |oa]; destruct b as [| | | | | | |ob]; try (destruct oa); try (destruct ob); cbn [lv precedence strength] in *; try lia; exfalso; apply N4; auto. }
    destruct La as [La Lb]. unfold start, more in *. cbn [fl fst snd] in *. rewrite map_app in *. cbn [map] in *. rewrite <- app_assoc in *. apply IHa; [lia|cbn; exact La| |exact Lf].
    intros [|f] L1; [lia|]. cbn [app pratt]. assert (rbp <? precedence o = true) as -> by (apply Nat.ltb_lt; exact L). fold (start b). change (map (fun '(o0, t) => (o0, parse_term t)) (snd (fl b))) with (more b) in *. simpl in L1.
    rewrite (IHb (precedence o) ops (Some (ast b, ops))); [apply H; rewrite app_length in L1; lia|exact Lb|destruct ops as [|[o' t'] ops]; [exact I|lia]| |lia].
    intros [|g] Lg; [lia|]. destruct ops as [|[o' t'] ops]; [reflexivity|]. cbn [pratt]. assert (precedence o <? precedence o' = false) as -> by (apply Nat.ltb_ge; exact Hd). reflexivity.
Qed.
Theorem parse_ok : forall w1 c w2, blank w1 -> blank w2 -> grammatical c -> plain c -> parse_pytket_param (w1 ++ show c ++ w2) = ast c.
Proof.
  intros w1 c w2 B1 B2 G P. unfold parse_pytket_param. rewrite (parameter_ok w1 c w2 B1 B2 G P). cbn [parse_term]. unfold parse_infix_ops. fold (start c). change (map (fun '(o, t) => (o, parse_term t)) (snd (fl c))) with (more c). rewrite (pratts_end c (pratt_ok c G P)); [reflexivity|lia].
Qed.

(** ** Evaluation *)
Lemma function_known : forall f, known_function f = match function f with Some (o, _) => Some o | None => None end.
Proof.
  intros f. unfold known_function, function. destruct (string_of_list_ascii f) as [|[[] [] [] [] [] [] [] []] s]; try reflexivity; do 5 (try (destruct s as [|[[] [] [] [] [] [] [] []] s]; try reflexivity)).
Qed.
Lemma function_arity : forall f o n, function f = Some (o, n) -> arity o = n.
Proof.
  intros f o n. unfold function. repeat match goal with |- match ?s with _ => _ end = _ -> _ => destruct s; try discriminate | |- (if ?b then _ else _) = _ -> _ => destruct b; try discriminate end; intros H; injection H as <- <-; reflexivity.
Qed.
Section Eval.
Variable K : numbers.
Variables (inputs : str -> loaded K) (sympy : str -> value K).
Let var (x : str) : value K := angle K (inputs x).
Hypothesis L : laws K.
Definition gives (p : param) (v : value K) : Prop := forall hint, exists l, process K inputs sympy p hint = Some l /\ angle K l = v.
Lemma typed_angle : forall l ty, ty <> FloatRadians -> snd (with_type K ty l) = angle K l.
Proof. intros [[] v] [] N; try reflexivity; congruence. Qed.
Lemma gives_constant : forall n, finite K (of_text K n) = true -> gives (Constant n) (of_text K n).
Proof. intros n F hint. cbn [process]. unfold constant. rewrite F. destruct hint as [[]|]; eexists; (split; [reflexivity|reflexivity]). Qed.
Lemma gives_unary : forall o a v ty, arity o = 1 -> ty <> FloatRadians -> gives a v -> gives (Operation o [a] ty) (unary K o v).
Proof.
  intros o a v ty A N H hint. destruct (H (Some ty)) as (l & E & <-). cbn [process]. rewrite E, A. cbn [Nat.eqb]. exists (ty, unary K o (snd (with_type K ty l))). split; [reflexivity|]. rewrite (typed_angle l ty N). unfold angle at 1. cbn [fst snd]. destruct ty; congruence.
Qed.
Lemma gives_binary : forall o a b va vb ty, arity o = 2 -> ty <> FloatRadians -> gives a va -> gives b vb -> gives (Operation o [a; b] ty) (binary K o va vb).
Proof.
  intros o a b va vb ty A N Ha Hb hint. destruct (Ha (Some ty)) as (l & E & <-). destruct (Hb (Some ty)) as (l' & E' & <-). cbn [process]. rewrite E, E', A. cbn [Nat.eqb]. exists (ty, binary K o (snd (with_type K ty l)) (snd (with_type K ty l'))). split; [reflexivity|]. rewrite !(typed_angle _ ty N). unfold angle at 1. cbn [fst snd]. destruct ty; congruence.
Qed.
Lemma ast_gives_ : forall c, grammatical c -> bounded K c -> gives (ast c) (meaning K var sympy c) /\ match c with CImplicit _ _ c' => gives (ast c') (meaning K var sympy c') | _ => True end.
Proof.
  assert (N1 : FloatHalfTurns <> FloatRadians) by discriminate. assert (N2 : Rotation <> FloatRadians) by discriminate.
  induction c as [n|x|w1 c IH w2|f w0 w1 a IH w2|f w0 w1 a IHa w2 w3 b IHb w4|n w c IH|w c IH|o a IHa w1 w2 b IHb]; intros G B; (split; [|try exact I]).
  - apply gives_constant. exact B.
  - intros hint. cbn [ast process meaning]. destruct (list_eq_dec ascii_dec x (lit "pi")); [|eexists; split; reflexivity]. unfold constant. rewrite (pi_finite K L). destruct hint as [[]|]; eexists; (split; [reflexivity|reflexivity]).
  - apply IH; [apply G|exact B].
  - assert (Ar : forall o n, function f = Some (o, n) -> n = 1) by apply G. cbn [ast meaning]. rewrite function_known. destruct (function f) as [[o n]|] eqn:F; [|intros hint; eexists; split; reflexivity]. apply gives_unary; auto; [rewrite (function_arity f o n F); eauto|]. apply IH; [apply G|exact B].
  - assert (Ar : forall o n, function f = Some (o, n) -> n = 2) by apply G. cbn [ast meaning]. rewrite function_known. destruct (function f) as [[o n]|] eqn:F; [|intros hint; eexists; split; reflexivity]. apply gives_binary; auto; [rewrite (function_arity f o n F); eauto| |]; [apply IHa|apply IHb]; try apply G; apply B.
  - cbn [ast meaning]. apply gives_binary; auto; [apply gives_constant; apply B|]. apply IH; [apply G|apply B].
  - apply IH; [apply G|apply B].
  - assert (Gc : grammatical c) by apply G. destruct (IH Gc B) as [IH1 IH2]. assert (D : gives (Operation Fneg [ast c] FloatHalfTurns) (unary K Fneg (meaning K var sympy c))) by (apply gives_unary; auto). cbn [ast]. destruct w as [|y w]; [|exact D]. destruct c; try exact D; cbn [meaning].
    + rewrite <- (minus_text K L) by exact Gc. apply gives_constant. rewrite (minus_text K L) by exact Gc. rewrite (minus_finite K L). exact B.
    + destruct Gc as (Nn & _ & Gc & _). destruct B as [Bn Bc]. rewrite (minus_times K L), <- (minus_text K L) by exact Nn. apply gives_binary; auto. apply gives_constant. rewrite (minus_text K L) by exact Nn. rewrite (minus_finite K L). exact Bn.
  - destruct G as (Ga & Gb & _). destruct B as [Ba Bb]. cbn [ast meaning]. unfold node, infix_meaning. destruct o; cbn [infix_op fst snd]; (apply gives_binary; [reflexivity|assumption|apply IHa; assumption|apply IHb; assumption]).
Qed.
Lemma ast_gives : forall c, grammatical c -> bounded K c -> gives (ast c) (meaning K var sympy c).
Proof. intros c G B. apply ast_gives_; assumption. Qed.
Theorem load_ok : forall w1 c w2 hint, blank w1 -> blank w2 -> grammatical c -> plain c -> bounded K c ->
  exists l, load_half_turns_parameter K inputs sympy (w1 ++ show c ++ w2) hint = Some l /\ angle K l = meaning K var sympy c.
Proof. intros w1 c w2 hint B1 B2 G P B. unfold load_half_turns_parameter. rewrite (parse_ok w1 c w2 B1 B2 G P). apply ast_gives; assumption. Qed.
End Eval.

(** ** Encoding *)
Section Encode.
Variable K : numbers.
Variables (var sympy : str -> value K).
Hypothesis L : laws K.
Hypothesis O : one_laws K.
Definition says (s : str) (v : value K) : Prop := exists c, s = show c /\ grammatical c /\ plain c /\ bounded K c /\ meaning K var sympy c = v.
Lemma blank_nil : blank [].
Proof. constructor. Qed.
Lemma blank_one : blank (lit " ").
Proof. constructor; [left; reflexivity|constructor]. Qed.
Lemma number_ok : forall s, match s with [c] => digit c | _ => False end -> number s.
Proof.
  intros [|c [|]] D; [destruct D| |destruct D]. exists [c], [], []. split; [reflexivity|]. split; [|split; left; reflexivity]. destruct (ascii_dec c "0") as [->|N]; [left; reflexivity|]. right. exists c, []. repeat split; auto.
Qed.
Lemma name_pi : name (lit "pi").
Proof. exists "p"%char, (lit "i"). split; [reflexivity|]. split; [cbn; tauto|]. constructor; [left; cbn; tauto|constructor]. Qed.
Lemma letters_name : forall s, match s with [] => False | _ => forallb (fun c => existsb (Ascii.eqb c) (lit "abcdefghijklmnopqrstuvwxyzABCDEFGHIJKLMNOPQRSTUVWXYZ")) s = true end -> name s.
Proof.
  assert (X : forall c, existsb (Ascii.eqb c) (lit "abcdefghijklmnopqrstuvwxyzABCDEFGHIJKLMNOPQRSTUVWXYZ") = true -> letter c). { intros c H. apply existsb_exists in H. destruct H as (y & J & E). apply Ascii.eqb_eq in E. subst y. exact J. }
  intros [|c r] H; [destruct H|]. cbn [forallb] in H. apply andb_true_iff in H. destruct H as [A B]. exists c, r. split; [reflexivity|]. split; [apply X; exact A|]. rewrite forallb_forall in B. apply Forall_forall. intros y J. left. apply X. apply B. exact J.
Qed.
Lemma says_pi : says (lit "pi") (pi K).
Proof. exists (CVar (lit "pi")). split; [reflexivity|]. split; [exact name_pi|]. split; [exact I|]. split; [exact I|]. reflexivity. Qed.
(** A quotient of something strong enough and a digit. *)
Lemma says_over : forall c d, grammatical c -> plain c -> bounded K c -> 2 <= strength c -> digit d -> finite K (of_text K [d]) = true -> says (show c ++ "/"%char :: [d]) (binary K Fdiv (meaning K var sympy c) (of_text K [d])).
Proof.
  intros c d G P B St D F. exists (CInfix Divide c [] [] (CNum [d])). split; [reflexivity|]. split; [|split; [|split; [|reflexivity]]].
  - split; [exact G|]. split; [apply number_ok; exact D|]. split; [exact blank_nil|]. split; [exact blank_nil|]. split; [exact St|simpl; lia].
  - split; [exact P|]. split; [exact I|discriminate].
  - split; [exact B|exact F].
Qed.
Lemma says_vals : forall w s, In (w, s) (vals K) -> says s w.
Proof.
  destruct (small K O) as (F2 & F3 & F4). assert (D2 : digit "2") by (cbn; tauto). assert (D3 : digit "3") by (cbn; tauto). assert (D4 : digit "4") by (cbn; tauto). assert (NP := name_pi).
  set (p := CVar (lit "pi")). assert (Gp : grammatical p) by exact NP. set (np := CNeg [] p). assert (Gnp : grammatical np) by (split; [exact blank_nil|split; [exact Gp|simpl; lia]]). assert (Pnp : plain np) by (split; [exact I|simpl; lia]).
  set (tp := CImplicit (lit "3") [] p). assert (Gtp : grammatical tp) by (split; [apply number_ok; exact D3|split; [exact blank_nil|split; [exact Gp|split; [exact I|intros _ r; split; discriminate]]]]). assert (Btp : bounded K tp) by (split; [exact F3|exact I]).
  set (ntp := CNeg [] tp). assert (Gntp : grammatical ntp) by (split; [exact blank_nil|split; [exact Gtp|simpl; lia]]). assert (Pntp : plain ntp) by (split; [exact I|simpl; lia]).
  assert (N3 : binary K Fmul (minus K (three K)) (pi K) = unary K Fneg (binary K Fmul (three K) (pi K))) by (symmetry; apply (minus_times K L)).
  intros w s J. unfold vals in J. cbn [In] in J. repeat (destruct J as [J|J]; [injection J as <- <-|]); [exact says_pi| | | | | | |destruct J].
  - apply (says_over p "2"%char); simpl; auto; exact I.
  - apply (says_over np "2"%char); simpl; auto; exact I.
  - apply (says_over p "4"%char); simpl; auto; exact I.
  - apply (says_over tp "4"%char); simpl; auto; exact I.
  - apply (says_over np "4"%char); simpl; auto; exact I.
  - rewrite N3. apply (says_over ntp "4"%char); simpl; auto; exact I.
Qed.
Lemma says_one : forall v, says (lit "1") v -> v = of_text K (lit "1").
Proof.
  intros v (c & E & G & P & B & <-). assert (X := load_ok K (fun x => (FloatHalfTurns, var x)) sympy L [] c [] (Some FloatHalfTurns) blank_nil blank_nil G P B). cbn [app] in X. rewrite app_nil_r, <- E in X. destruct X as (l & Y & Z). change (angle K l = meaning K var sympy c) in Z. rewrite <- Z. clear Z. unfold load_half_turns_parameter in Y. vm_compute in Y. injection Y as <-. reflexivity.
Qed.
Lemma says_wrap : forall o sym a b va vb, symbol o = lit sym -> says a va -> says b vb -> says (wrap a sym b) (infix_meaning K o va vb).
Proof.
  intros o sym a b va vb Sy (ca & -> & Ga & Pa & Ba & <-) (cb & -> & Gb & Pb & Bb & <-). exists (CInfix o (CParen [] ca []) (lit " ") (lit " ") (CParen [] cb [])). split; [|split; [|split; [|split; [|reflexivity]]]].
  - unfold wrap. cbn [show]. rewrite Sy. cbn [app]. repeat (rewrite <- !app_assoc; cbn [app lit list_ascii_of_string]). reflexivity.
  - split; [split; [exact blank_nil|split; [exact blank_nil|exact Ga]]|]. split; [split; [exact blank_nil|split; [exact blank_nil|exact Gb]]|]. split; [exact blank_one|]. split; [exact blank_one|]. destruct o; simpl; lia.
  - split; [exact Pa|]. split; [exact Pb|simpl; lia].
  - split; assumption.
Qed.
Lemma says_call1 : forall f o a va, function (lit f) = Some (o, 1) -> name (lit f) -> says a va -> says (lit f ++ lit "(" ++ a ++ lit ")") (unary K o va).
Proof.
  intros f o a va F N (ca & -> & Ga & Pa & Ba & <-). exists (CCall1 (lit f) [] [] ca []). split; [reflexivity|]. split; [|split; [exact Pa|split; [exact Ba|cbn [meaning]; rewrite F; reflexivity]]].
  split; [exact N|]. do 3 (split; [exact blank_nil|]). split; [exact Ga|]. intros o' n E. congruence.
Qed.
Lemma says_call2 : forall f o a va b vb, function (lit f) = Some (o, 2) -> name (lit f) -> says a va -> says b vb -> says (lit f ++ lit "(" ++ a ++ lit ", " ++ b ++ lit ")") (binary K o va vb).
Proof.
  intros f o a va b vb F N (ca & -> & Ga & Pa & Ba & <-) (cb & -> & Gb & Pb & Bb & <-). exists (CCall2 (lit f) [] [] ca [] (lit " ") cb []). split; [cbn [show app]; reflexivity|]. split; [|split; [split; assumption|split; [split; assumption|cbn [meaning]; rewrite F; reflexivity]]].
  split; [exact N|]. do 3 (split; [exact blank_nil|]). split; [exact blank_one|]. split; [exact blank_nil|]. split; [exact Ga|]. split; [exact Gb|]. intros o' n E. congruence.
Qed.
Theorem encode_says : forall e, encodable K var sympy e -> says (encode K e) (feval K var sympy e).
Proof.
  induction e as [v|x|s|o a IH|o a IHa b IHb]; intros E; cbn [encode feval encodable] in *.
  - destruct E as [(F & RT & Sh) Ex]. unfold const_to_pytket. destruct (find (fun '(w, _) => near K v w) (vals K)) as [[w s]|] eqn:Q.
    + apply find_some in Q. destruct Q as [J N]. rewrite (Ex w s J N). apply says_vals. exact J.
    + destruct Sh as [N|(s & Es & N & Fs)].
      * exists (CNum (to_text K v)). split; [reflexivity|]. split; [exact N|]. split; [exact I|]. cbn [bounded meaning]. rewrite RT. auto.
      * exists (CNeg [] (CNum s)). rewrite Es. split; [reflexivity|]. split; [split; [exact blank_nil|split; [exact N|simpl; lia]]|]. split; [split; [exact I|simpl; lia]|]. split; [exact Fs|]. cbn [meaning]. rewrite <- (minus_text K L s N), <- Es. exact RT.
  - destruct E as [N X]. exists (CVar x). split; [reflexivity|]. split; [exact N|]. split; [exact I|]. split; [exact I|]. cbn [meaning]. destruct (list_eq_dec ascii_dec x (lit "pi")); [contradiction|reflexivity].
  - destruct E as (c & -> & G & P & B & M). exists c. auto.
  - specialize (IH E). destruct o; cbn [encode_unary op1].
    + destruct IH as (c & -> & G & P & B & <-). exists (CNeg [] (CParen [] c [])). split; [reflexivity|]. split; [split; [exact blank_nil|split; [split; [exact blank_nil|split; [exact blank_nil|exact G]]|simpl; lia]]|]. split; [split; [exact P|simpl; lia]|]. split; [exact B|reflexivity].
    + apply (says_call1 "floor" Ffloor); [reflexivity|apply letters_name; reflexivity|exact IH].
    + apply (says_call1 "ceil" Fceil); [reflexivity|apply letters_name; reflexivity|exact IH].
    + apply (says_call1 "round" Fround); [reflexivity|apply letters_name; reflexivity|exact IH].
    + apply (says_call1 "abs" Fabs); [reflexivity|apply letters_name; reflexivity|exact IH].
  - destruct E as [Ea Eb]. specialize (IHa Ea). specialize (IHb Eb). destruct o; cbn [encode_binary op2].
    + apply (says_wrap Add); [reflexivity|exact IHa|exact IHb].
    + apply (says_wrap Subtract); [reflexivity|exact IHa|exact IHb].
    + unfold is_one. destruct (list_eq_dec ascii_dec (encode K a) (lit "1")) as [E1|_].
      * rewrite E1 in IHa. rewrite (says_one _ IHa), (one_times K O). exact IHb.
      * destruct (list_eq_dec ascii_dec (encode K b) (lit "1")) as [E1|_]; [rewrite E1 in IHb; rewrite (says_one _ IHb), (times_one K O); exact IHa|]. apply (says_wrap Multiply); [reflexivity|exact IHa|exact IHb].
    + unfold is_one. destruct (list_eq_dec ascii_dec (encode K b) (lit "1")) as [E1|_]; [rewrite E1 in IHb; rewrite (says_one _ IHb), (over_one K O); exact IHa|]. apply (says_wrap Divide); [reflexivity|exact IHa|exact IHb].
    + apply (says_wrap Power); [reflexivity|exact IHa|exact IHb].
    + apply (says_call2 "max" Fmax); [reflexivity|apply letters_name; reflexivity|exact IHa|exact IHb].
    + apply (says_call2 "min" Fmin); [reflexivity|apply letters_name; reflexivity|exact IHa|exact IHb].
Qed.
End Encode.
