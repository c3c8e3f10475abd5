(** When loading does not panic, and the inputs of a circuit. *)
From Coq Require Import List Bool Arith String Ascii Lia.
From Verif Require Import ParamModel ParamSpec ParamProofs ParamPeg ParamLoad.
Import ListNotations.
Local Open Scope list_scope.

(** ** Operators *)
Lemma pratt_total : forall fuel rbp lhs l, length l + 1 <= fuel -> exists p l', pratt fuel rbp lhs l = Some (p, l') /\ length l' <= length l /\ match l' with [] => True | (o, _) :: _ => precedence o <= rbp end.
Proof.
  induction fuel as [|fuel IH]; intros rbp lhs l L; [lia|]. cbn [pratt]. destruct l as [|[o t] l]; [exists lhs, []; simpl; auto|]. destruct (rbp <? precedence o) eqn:E; [|exists lhs, ((o, t) :: l); split; [reflexivity|split; [lia|apply Nat.ltb_ge; exact E]]].
  simpl in L. destruct (IH (precedence o) t l ltac:(lia)) as (rhs & l1 & -> & L1 & _). destruct (IH rbp (node o lhs rhs) l1 ltac:(lia)) as (p & l2 & -> & L2 & H). exists p, l2. split; [reflexivity|]. split; [simpl; lia|exact H].
Qed.
Lemma pratt_all : forall lhs l, exists p, pratt (2 * length l + 1) 0 lhs l = Some (p, []).
Proof. intros lhs l. destruct (pratt_total (2 * length l + 1) 0 lhs l ltac:(lia)) as (p & [|[o t] l'] & E & _ & H); [exists p; exact E|]. destruct o; simpl in H; lia. Qed.
Lemma pratt_closed : forall (P : param -> Prop), (forall o a b, P a -> P b -> P (node o a b)) -> forall fuel rbp lhs l p l', pratt fuel rbp lhs l = Some (p, l') -> P lhs -> Forall (fun '(_, t) => P t) l -> P p /\ Forall (fun '(_, t) => P t) l'.
Proof.
  intros P HN. induction fuel as [|fuel IH]; intros rbp lhs l p l' H A B; [discriminate|]. cbn [pratt] in H. destruct l as [|[o t] l]; [injection H as <- <-; auto|]. destruct (rbp <? precedence o); [|injection H as <- <-; auto]. inversion B as [|? ? Bt Bl]; subst. destruct (pratt fuel (precedence o) t l) as [[rhs l1]|] eqn:E; [|discriminate]. destruct (IH _ _ _ _ _ E Bt Bl) as [C D]. apply (IH _ _ _ _ _ H); auto.
Qed.
Lemma infix_closed : forall (P : param -> Prop), (forall o a b, P a -> P b -> P (node o a b)) -> forall lhs l, P lhs -> Forall (fun '(_, t) => P t) l -> P (parse_infix_ops lhs l).
Proof. intros P HN lhs l A B. unfold parse_infix_ops. destruct (pratt_all lhs l) as (p & E). rewrite E. apply (pratt_closed P HN _ _ _ _ _ _ E A B). Qed.

(** ** No panic *)
Section Fine.
Variable K : numbers.
Variables (inputs : str -> loaded K) (sympy : str -> value K).
Hypothesis F : finite K (pi K) = true.
Definition runs (p : param) : Prop := forall hint, process K inputs sympy p hint <> None.
Lemma constant_runs : forall v hint, finite K v = true -> constant K v hint <> None.
Proof. intros v hint H. unfold constant. rewrite H. destruct hint as [[]|]; discriminate. Qed.
Lemma operation_runs : forall o args ty, length args = arity o -> Forall runs args -> runs (Operation o args ty).
Proof.
  intros o args ty L H hint. cbn [process]. assert (X : arity o = 1 \/ arity o = 2) by (destruct o; simpl; auto). destruct args as [|a [|b [|c args]]]; simpl in L; try lia.
  - inversion H as [|? ? Ra _]; subst. specialize (Ra (Some ty)). destruct (process K inputs sympy a (Some ty)); [|congruence]. rewrite <- L. discriminate.
  - inversion H as [|? ? Ra H']; subst. inversion H' as [|? ? Rb _]; subst. specialize (Ra (Some ty)). specialize (Rb (Some ty)). destruct (process K inputs sympy a (Some ty)); [|congruence]. destruct (process K inputs sympy b (Some ty)); [|congruence]. rewrite <- L. discriminate.
Qed.
Lemma node_runs : forall o a b, runs a -> runs b -> runs (node o a b).
Proof. intros o a b A B. apply operation_runs; [destruct o; reflexivity|auto]. Qed.
Lemma constant_ok : forall n, finite K (of_text K n) = true -> runs (Constant n).
Proof. intros n H hint. apply constant_runs. exact H. Qed.
Fixpoint fine (p : pair) {struct p} : sensible K p -> runs (parse_term p).
Proof.
  intros H. destruct p as [t l|n t|n|t|s f l|x].
  - cbn [parse_term]. apply infix_closed; [exact node_runs|apply fine; inversion H; assumption|]. assert (Hl : Forall (fun p => sensible K (snd p)) l) by (inversion H; assumption). clear H t. induction l as [|[o t] l IH]; [constructor|]. cbn [map]. constructor; [apply fine; inversion Hl; assumption|apply IH; inversion Hl; assumption].
  - cbn [parse_term]. apply operation_runs; [reflexivity|]. constructor; [apply constant_ok; inversion H; assumption|]. constructor; [apply fine; inversion H; assumption|constructor].
  - cbn [parse_term]. apply constant_ok. inversion H. assumption.
  - cbn [parse_term]. apply operation_runs; [reflexivity|]. constructor; [apply fine; inversion H; assumption|constructor].
  - cbn [parse_term]. rewrite function_known. destruct (function f) as [[o n]|] eqn:E; [|intros hint; discriminate]. assert (HH : n = length l /\ Forall (sensible K) l) by (inversion H; split; congruence). destruct HH as [-> Hl]. apply operation_runs; [rewrite map_length; symmetry; apply (function_arity f); exact E|]. clear - fine Hl. induction l as [|t l IH]; [constructor|]. cbn [map]. constructor; [apply fine; inversion Hl; assumption|apply IH; inversion Hl; assumption].
  - intros hint. cbn [parse_term process]. destruct (list_eq_dec ascii_dec x (lit "pi")); [|discriminate]. apply constant_runs. exact F.
Qed.
End Fine.

(** ** Inputs *)
Definition wires_of (st : parameters) : list wire := map snd (known st) ++ unused st.
Record sound_inputs (st : parameters) : Prop := {
  i_names : NoDup (map fst (known st));
  i_wires : NoDup (wires_of st);
  i_below : forall w, In w (wires_of st) -> w < added st
}.
Definition maps (st : parameters) (x : str) (w : wire) : Prop := In (x, w) (known st).
Lemma find_none_name : forall l x, find (fun '(y, _) => if list_eq_dec ascii_dec y x then true else false) l = None -> ~ In x (map fst (l : list (str * wire))).
Proof. intros l x H J. apply in_map_iff in J. destruct J as ([y w] & E & J). simpl in E. subst y. assert (X := find_none _ _ H _ J). cbv beta iota in X. destruct (list_eq_dec ascii_dec x x); congruence. Qed.
Lemma nodup_snoc : forall A (l : list A) x, NoDup l -> ~ In x l -> NoDup (l ++ [x]).
Proof. intros A l x N H. apply (NoDup_Add (a := x) (l := l) (l' := l ++ [x])); [|auto]. assert (X := Add_app x l []). rewrite app_nil_r in X. exact X. Qed.
Lemma input_ok : forall st x, sound_inputs st -> forall st' w, input_wire st x = (st', w) -> sound_inputs st' /\ maps st' x w /\ (forall y v, maps st y v -> maps st' y v).
Proof.
  intros st x [N W B] st' w H. unfold input_wire in H. match type of H with context [find ?f (known st)] => destruct (find f (known st)) as [[y v]|] eqn:Q end.
  - injection H as <- <-. apply find_some in Q. destruct Q as [J E]. destruct (list_eq_dec ascii_dec y x); [subst y|discriminate]. split; [constructor; assumption|]. split; [exact J|auto].
  - apply find_none_name in Q. destruct (unused st) as [|v l] eqn:U; injection H as <- <-; (split; [|split; [unfold maps; cbn; apply in_or_app; right; left; reflexivity|intros z u J; unfold maps in *; cbn; apply in_or_app; left; exact J]]).
    + unfold wires_of in W, B. rewrite U, app_nil_r in *. constructor; unfold wires_of; cbn [known unused added]; rewrite ?map_app, ?app_nil_r; cbn [map fst snd].
      * apply nodup_snoc; assumption.
      * apply nodup_snoc; [exact W|]. intros J. apply B in J. lia.
      * intros u J. apply in_app_or in J. destruct J as [J|[<-|[]]]; [apply B in J; lia|lia].
    + unfold wires_of in W, B. rewrite U in *. constructor; unfold wires_of; cbn [known unused added]; rewrite ?map_app; cbn [map fst snd]; rewrite <- ?app_assoc; cbn [app]; [apply nodup_snoc; assumption|exact W|exact B].
Qed.
Lemma inputs_ok : forall l st, sound_inputs st -> forall st' ws, input_wires st l = (st', ws) -> sound_inputs st' /\ Forall2 (maps st') l ws /\ (forall y v, maps st y v -> maps st' y v).
Proof.
  induction l as [|x l IH]; intros st G st' ws H; cbn [input_wires] in H; [injection H as <- <-; auto|]. destruct (input_wire st x) as [st1 w] eqn:E1. destruct (input_wires st1 l) as [st2 ws'] eqn:E2. injection H as <- <-. destruct (input_ok st x G _ _ E1) as (G1 & M1 & K1). destruct (IH st1 G1 _ _ E2) as (G2 & M2 & K2). split; [exact G2|]. split; [constructor; auto|auto].
Qed.
Lemma maps_one : forall st x y v w, sound_inputs st -> maps st x v -> maps st y w -> (x = y <-> v = w).
Proof.
  intros st x y v w [N W _] A B. unfold wires_of in W. assert (W' : NoDup (map snd (known st))). { clear - W. induction (map snd (known st)) as [|a l IH]; [constructor|]. cbn [app] in W. inversion W as [|? ? X Y]; subst. constructor; [intros J; apply X; apply in_or_app; auto|apply IH; exact Y]. }
  unfold maps in *. clear W. induction (known st) as [|[z u] l IH]; [destruct A|]. cbn [map fst snd] in *. inversion N as [|? ? N1 N2]; subst. inversion W' as [|? ? W1 W2]; subst. destruct A as [A|A], B as [B|B].
  - injection A as <- <-. injection B as <- <-. tauto.
  - injection A as <- <-. split; intros E; exfalso; subst; [apply N1; apply (in_map fst) in B; exact B|apply W1; apply (in_map snd) in B; exact B].
  - injection B as <- <-. split; intros E; exfalso; subst; [apply N1; apply (in_map fst) in A; exact A|apply W1; apply (in_map snd) in A; exact A].
  - apply IH; auto.
Qed.
Lemma names_ok : forall c, lookups (ast c) = names c.
Proof.
  assert (E : forall w c, lookups (ast (CNeg w c)) = lookups (ast c)). { intros w c. destruct w as [|x w]; [|cbn; apply app_nil_r]. destruct c; try (cbn [ast lookups flat_map]; apply app_nil_r); reflexivity. }
  induction c as [n|x|w1 c IH w2|f w0 w1 a IH w2|f w0 w1 a IHa w2 w3 b IHb w4|n w c IH|w c IH|o a IHa w1 w2 b IHb]; cbn [names]; try reflexivity.
  - exact IH.
  - cbn [ast]. rewrite function_known. destruct (function f) as [[o n]|]; [|reflexivity]. cbn [lookups flat_map]. rewrite app_nil_r. exact IH.
  - cbn [ast]. rewrite function_known. destruct (function f) as [[o n]|]; [|reflexivity]. cbn [lookups flat_map]. rewrite app_nil_r, IHa, IHb. reflexivity.
  - cbn [ast lookups flat_map]. rewrite app_nil_r. exact IH.
  - rewrite E. exact IH.
  - cbn [ast]. unfold node. cbn [lookups flat_map]. rewrite app_nil_r, IHa, IHb. reflexivity.
Qed.
Lemma input_order : forall st x st' w, input_wire st x = (st', w) -> map fst (known st') = distinct (map fst (known st)) [x] /\ added st <= added st' /\ wires_of st' = wires_of st ++ seq (added st) (added st' - added st).
Proof.
  intros st x st' w H. unfold input_wire in H. cbn [distinct]. match type of H with context [find ?f (known st)] => destruct (find f (known st)) as [[y v]|] eqn:Q end.
  - injection H as <- <-. apply find_some in Q. destruct Q as [J E]. destruct (list_eq_dec ascii_dec y x); [subst y|discriminate]. rewrite Nat.sub_diag, app_nil_r. destruct (in_dec (list_eq_dec ascii_dec) x (map fst (known st))) as [_|N]; [auto|]. exfalso. apply N. apply (in_map fst) in J. exact J.
  - apply find_none_name in Q. destruct (in_dec (list_eq_dec ascii_dec) x (map fst (known st))) as [J|_]; [contradiction|]. unfold wires_of. destruct (unused st) as [|v l] eqn:U; injection H as <- <-; cbn [known unused added]; rewrite !map_app; cbn [map fst snd]; (split; [reflexivity|]); (split; [lia|]).
    + replace (S (added st) - added st) with 1 by lia. cbn [seq]. rewrite !app_nil_r. reflexivity.
    + rewrite Nat.sub_diag. cbn [seq]. rewrite app_nil_r, <- app_assoc. reflexivity.
Qed.
Lemma inputs_order : forall l st st' ws, input_wires st l = (st', ws) -> map fst (known st') = distinct (map fst (known st)) l /\ added st <= added st' /\ wires_of st' = wires_of st ++ seq (added st) (added st' - added st).
Proof.
  induction l as [|x l IH]; intros st st' ws H; cbn [input_wires] in H; [injection H as <- <-; rewrite Nat.sub_diag, app_nil_r; auto|]. destruct (input_wire st x) as [st1 w] eqn:E1. destruct (input_wires st1 l) as [st2 ws'] eqn:E2. injection H as <- <-. destruct (input_order _ _ _ _ E1) as (A1 & B1 & C1). destruct (IH _ _ _ E2) as (A2 & B2 & C2). split; [|split; [lia|]].
  - rewrite A2, A1. cbn [distinct]. destruct (in_dec (list_eq_dec ascii_dec) x (map fst (known st))); reflexivity.
  - rewrite C2, C1, <- app_assoc. f_equal. replace (added st2 - added st) with ((added st1 - added st) + (added st2 - added st1)) by lia. rewrite seq_app. f_equal. f_equal. lia.
Qed.
Lemma lookups_all : forall cs, Forall (fun c => grammatical c /\ plain c) cs -> flat_map (fun s => lookups (parse_pytket_param s)) (map show cs) = flat_map names cs.
Proof.
  induction cs as [|c cs IH]; intros H; [reflexivity|]. inversion H as [|? ? [G P] H']; subst. cbn [map flat_map]. rewrite (IH H'). f_equal. assert (X := parse_ok [] c [] (Forall_nil _) (Forall_nil _) G P). cbn [app] in X. rewrite app_nil_r in X. rewrite X. apply names_ok.
Qed.
