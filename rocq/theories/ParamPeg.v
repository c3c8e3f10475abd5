(** The grammar reads what is written. *)
From Coq Require Import List Bool Arith String Ascii Lia.
From Verif Require Import ParamModel ParamSpec ParamProofs.
Import ListNotations.
Local Open Scope list_scope.

Fixpoint fl (c : written) : pair * list (infix * pair) :=
  match c with
  | CNum s => (Num s, [])
  | CVar x => (Ident x, [])
  | CParen _ c _ => (Expr (fst (fl c)) (snd (fl c)), [])
  | CCall1 f _ _ a _ => (FunctionCall (show c) f [Expr (fst (fl a)) (snd (fl a))], [])
  | CCall2 f _ _ a _ _ b _ => (FunctionCall (show c) f [Expr (fst (fl a)) (snd (fl a)); Expr (fst (fl b)) (snd (fl b))], [])
  | CImplicit n _ c => (ImplicitMultiply n (fst (fl c)), [])
  | CNeg w c =>
      (match w, c with
       | [], CNum s => Num ("-"%char :: s)
       | [], CImplicit n _ c' => ImplicitMultiply ("-"%char :: n) (fst (fl c'))
       | _, _ => UnaryMinus (fst (fl c))
       end, [])
  | CInfix o a _ _ b => (fst (fl a), snd (fl a) ++ (o, fst (fl b)) :: snd (fl b))
  end.
Definition single (c : written) : Prop := match c with CInfix _ _ _ _ _ => False | _ => True end.
Lemma single_rest : forall c, single c -> snd (fl c) = [].
Proof. intros [] H; try reflexivity. destruct H. Qed.
Lemma single_strength : forall c, 3 <= strength c -> strength c <> 4 -> single c.
Proof. intros [] A B; simpl in *; auto. destruct o; lia. Qed.

Definition beginnings : str := lit "0123456789abcdefghijklmnopqrstuvwxyzABCDEFGHIJKLMNOPQRSTUVWXYZ(-".
Lemma begins_letter : forall x, letter x -> In x beginnings.
Proof. intros x L. assert (X := inl_letter (fun c => existsb (Ascii.eqb c) beginnings) x eq_refl L). apply existsb_exists in X. destruct X as (y & J & E). apply Ascii.eqb_eq in E. subst y. exact J. Qed.
Lemma begins_digit : forall x, digit x -> In x beginnings.
Proof. intros x L. assert (X := inl_digit (fun c => existsb (Ascii.eqb c) beginnings) x eq_refl L). apply existsb_exists in X. destruct X as (y & J & E). apply Ascii.eqb_eq in E. subst y. exact J. Qed.
Lemma begins : forall c, grammatical c -> exists x r, show c = x :: r /\ In x beginnings.
Proof.
  assert (P : In "("%char beginnings /\ In "-"%char beginnings) by (split; vm_compute; tauto).
  induction c as [s|x|w1 c IH w2|f w0 w1 a IH w2|f w0 w1 a IHa w2 w3 b IHb w4|n w c IH|w c IH|o a IHa w1 w2 b IHb]; intros G; cbn [show grammatical] in *.
  - destruct (number_first s G) as (x & r & -> & D). exists x, r. split; [reflexivity|apply begins_digit; exact D].
  - destruct G as (y & r & -> & L & _). exists y, r. split; [reflexivity|apply begins_letter; exact L].
  - eexists. eexists. split; [reflexivity|]. tauto.
  - destruct G as ((y & r & -> & L & _) & _). eexists. eexists. split; [reflexivity|apply begins_letter; exact L].
  - destruct G as ((y & r & -> & L & _) & _). eexists. eexists. split; [reflexivity|apply begins_letter; exact L].
  - destruct G as (N & _). destruct (number_first n N) as (x & r & -> & D). eexists. eexists. split; [reflexivity|apply begins_digit; exact D].
  - eexists. eexists. split; [reflexivity|]. tauto.
  - destruct (IHa (proj1 G)) as (x & r & E & J). rewrite E. eexists. eexists. split; [reflexivity|exact J].
Qed.
Lemma begins_bool : forall (P : ascii -> bool) c, grammatical c -> forallb P beginnings = true -> exists x r, show c = x :: r /\ P x = true.
Proof. intros P c G H. destruct (begins c G) as (x & r & E & J). exists x, r. split; [exact E|eapply inl; eauto]. Qed.
Lemma show_skip : forall c s, grammatical c -> skip (show c ++ s) = show c ++ s.
Proof. intros c s G. destruct (begins_bool (fun c => negb (is_space c)) c G eq_refl) as (x & r & E & X). apply negb_true_iff in X. apply skip_stop. rewrite E. exact X. Qed.
Lemma show_length : forall c, grammatical c -> 1 <= length (show c).
Proof. intros c G. destruct (begins c G) as (x & r & E & _). rewrite E. simpl. lia. Qed.

(** ** Single rules *)
Lemma parens_fail : forall f s, char "(" s = None -> parens (S f) s = Fail.
Proof. intros f s H. cbn [parens]. rewrite H. reflexivity. Qed.
Lemma call_fail : forall f s, ident s = None -> function_call (S f) s = Fail.
Proof. intros f s H. cbn [function_call]. rewrite H. reflexivity. Qed.
Lemma call_fail2 : forall f s x r, ident s = Some (x, r) -> char "(" (skip r) = None -> function_call (S f) s = Fail.
Proof. intros f s x r H H'. cbn [function_call]. rewrite H, H'. reflexivity. Qed.
Definition alone (f : nat) (s : str) : match_ pair :=
  orelse (parens f s) (orelse (function_call f s) (match ident s with Some (x, r) => Match (Ident x) r | None => Fail end)).
Lemma alone_fail : forall f s, follows s -> alone (S f) (skip s) = Fail.
Proof. intros f s H. destruct (ident_none s H) as [A B]. unfold alone. rewrite parens_fail, call_fail, A by assumption. reflexivity. Qed.
(** A term that begins with a number. *)
Lemma term_number : forall f s n r, char "(" s = None -> num s = Some (n, r) ->
  term (S (S f)) s = match alone (S f) (skip r) with Match t r' => Match (ImplicitMultiply n t) r' | Fail => Match (Num n) r | Fuel => Fuel end.
Proof.
  intros f s n r C N. remember (S f) as g. cbn [term]. subst g. rewrite (parens_fail f s C), N. cbn [orelse]. fold (alone (S f) (skip r)). destruct (alone (S f) (skip r)); reflexivity.
Qed.
(** One that does not. *)
Lemma term_other : forall f s, char "(" s = None -> num s = None -> char "-" s = None -> term (S (S f)) s = alone (S f) s.
Proof. intros f s C N M. remember (S f) as g. cbn [term]. subst g. unfold alone. rewrite (parens_fail f s C), N, M. reflexivity. Qed.
Lemma term_minus : forall f s, num ("-"%char :: s) = None -> term (S (S f)) ("-"%char :: s) = match term (S f) (skip s) with Match t r' => Match (UnaryMinus t) r' | Fail => Fail | Fuel => Fuel end.
Proof.
  intros f s N. remember (S f) as g. cbn [term]. subst g. rewrite (parens_fail f ("-"%char :: s) eq_refl), N. cbn [orelse char]. change (Ascii.eqb "-" "-") with true. cbv iota. rewrite (call_fail f ("-"%char :: s) eq_refl). cbn [ident]. change (is_alpha "-") with false. cbv iota. destruct (term (S f) (skip s)); reflexivity.
Qed.
Lemma term_paren : forall f s e r, parens (S f) s = Match e r -> term (S (S f)) s = Match e r.
Proof. intros f s e r H. remember (S f) as g. cbn [term]. rewrite H. reflexivity. Qed.

Lemma number_char : forall n s, number n -> char "(" (n ++ s) = None.
Proof. intros n s N. destruct (number_first n N) as (c & r & -> & D). cbn [app char]. rewrite (digit_not c "("); [reflexivity|cbn; intuition|exact D]. Qed.
Lemma name_chars : forall x s, name x -> char "(" (x ++ s) = None /\ char "-" (x ++ s) = None /\ num (x ++ s) = None.
Proof.
  intros x s (c & r & -> & L & _). destruct (letter_not_digit c L) as (A & B & C). cbn [app char]. unfold num. cbn [char]. rewrite (letter_not c "("), (letter_not c "-"); [|cbn; tauto|exact L|cbn; tauto|exact L]. split; [reflexivity|]. split; [reflexivity|]. cbn [int_part]. rewrite (letter_not c "0"), A; [reflexivity|cbn; tauto|exact L].
Qed.
(** No number after a sign. *)
Lemma minus_none : forall s, stops (fun c => Ascii.eqb c "0" || is_nonzero_digit c) s -> num ("-"%char :: s) = None.
Proof. intros s H. unfold num. cbn [char]. change (Ascii.eqb "-" "-") with true. cbv iota beta. destruct s as [|c s]; [reflexivity|]. cbn [stops] in H. apply orb_false_iff in H. destruct H as [A B]. cbn [int_part]. rewrite A, B. reflexivity. Qed.

Lemma infix_ok : forall o c s, grammatical c -> forall w, blank w -> infix_operator (symbol o ++ w ++ show c ++ s) = Some (o, w ++ show c ++ s).
Proof.
  intros o c s G w B. assert (X : char "*" (w ++ show c ++ s) = None).
  { destruct w as [|x w]; [|unfold blank in B; inversion B as [|? ? Y _]; subst; destruct Y as [-> | ->]; reflexivity]. destruct (begins_bool (fun c => negb (Ascii.eqb c "*")) c G eq_refl) as (x & r & E & Y). apply negb_true_iff in Y. rewrite E. cbn [app char]. rewrite Y. reflexivity. }
  destruct o; cbn [symbol lit list_ascii_of_string app infix_operator]; try reflexivity. change (Ascii.eqb "*" "+") with false. change (Ascii.eqb "*" "-") with false. change (Ascii.eqb "*" "*") with true. cbv iota. rewrite X. reflexivity.
Qed.
Lemma infix_none : forall s, ends s -> infix_operator (skip s) = None.
Proof. intros s H. unfold ends in H. destruct (skip s) as [|c r]; [reflexivity|]. destruct H as [<-|[<-|[]]]; reflexivity. Qed.
Lemma symbol_follows : forall o w s, blank w -> follows (w ++ symbol o ++ s).
Proof. intros o w s B. unfold follows. rewrite skip_blank by exact B. destruct o; cbn; tauto. Qed.
Lemma symbol_skip : forall o w s, blank w -> skip (w ++ symbol o ++ s) = symbol o ++ s.
Proof. intros o w s B. rewrite skip_blank by exact B. apply skip_stop. destruct o; reflexivity. Qed.
Lemma close_ends : forall w s, blank w -> ends (w ++ ")"%char :: s) /\ skip (w ++ ")"%char :: s) = ")"%char :: s.
Proof. intros w s B. unfold ends. rewrite skip_blank by exact B. rewrite skip_stop by reflexivity. split; [cbn; tauto|reflexivity]. Qed.
Lemma comma_ends : forall w s, blank w -> ends (w ++ ","%char :: s) /\ skip (w ++ ","%char :: s) = ","%char :: s.
Proof. intros w s B. unfold ends. rewrite skip_blank by exact B. rewrite skip_stop by reflexivity. split; [cbn; tauto|reflexivity]. Qed.

(** ** The grammar *)
Definition reads (c : written) : Prop :=
  (single c -> forall fuel s, 3 * length (show c ++ s) + 2 <= fuel -> follows s -> term fuel (show c ++ s) = Match (fst (fl c)) s) /\
  (single c -> forall fuel s, 3 * length ("-"%char :: show c ++ s) + 2 <= fuel -> follows s -> term fuel ("-"%char :: show c ++ s) = Match (fst (fl (CNeg [] c))) s) /\
  (standalone c -> forall fuel s, 3 * length (show c ++ s) + 1 <= fuel -> follows s -> alone fuel (show c ++ s) = Match (fst (fl c)) s) /\
  (forall fuel s, 3 * length (show c ++ s) + 2 <= fuel -> follows s -> exists r0, length r0 < length (show c ++ s) /\ term fuel (show c ++ s) = Match (fst (fl c)) r0 /\
     forall f l r, 3 * length r0 + 1 <= f -> (forall f', 3 * length s + 1 <= f' -> operands f' s = Match l r) -> operands f r0 = Match (snd (fl c) ++ l) r).
Lemma reads_flat : forall c, grammatical c -> single c ->
  (forall fuel s, 3 * length (show c ++ s) + 2 <= fuel -> follows s -> term fuel (show c ++ s) = Match (fst (fl c)) s) ->
  forall fuel s, 3 * length (show c ++ s) + 2 <= fuel -> follows s -> exists r0, length r0 < length (show c ++ s) /\ term fuel (show c ++ s) = Match (fst (fl c)) r0 /\
     forall f l r, 3 * length r0 + 1 <= f -> (forall f', 3 * length s + 1 <= f' -> operands f' s = Match l r) -> operands f r0 = Match (snd (fl c) ++ l) r.
Proof.
  intros c G S T fuel s L F. exists s. split; [rewrite app_length; assert (X := show_length c G); lia|]. split; [apply T; auto|]. intros f l r Lf H. rewrite (single_rest c S). apply H. exact Lf.
Qed.
Lemma reads_expr : forall c, reads c -> grammatical c -> forall fuel s, 3 * length (show c ++ s) + 3 <= fuel -> ends s -> expr fuel (show c ++ s) = Match (Expr (fst (fl c)) (snd (fl c))) s.
Proof.
  intros c (_ & _ & _ & F) G fuel s L E. destruct fuel as [|fuel]; [lia|]. cbn [expr]. destruct (F fuel s ltac:(lia) (ends_follows s E)) as (r0 & L0 & -> & H). rewrite (H fuel [] s); [rewrite app_nil_r; reflexivity|lia|].
  intros f' Lf. destruct f' as [|f']; [lia|]. cbn [operands]. rewrite (infix_none s E). reflexivity.
Qed.
Lemma neg_other : forall c, match c with CNum _ | CImplicit _ _ _ => False | _ => True end -> fst (fl (CNeg [] c)) = UnaryMinus (fst (fl c)).
Proof. intros [] H; try reflexivity; destruct H. Qed.
Lemma not_digit_first : forall c s, grammatical c -> single c -> match c with CNum _ | CImplicit _ _ _ => False | _ => True end -> stops (fun x => Ascii.eqb x "0" || is_nonzero_digit x) (show c ++ s).
Proof.
  assert (Q : forall f s, name f -> stops (fun x => Ascii.eqb x "0" || is_nonzero_digit x) (f ++ s)). { intros f s (c & r & -> & L & _). cbn [app stops]. rewrite (letter_not c "0"); [|cbn; tauto|exact L]. apply (letter_not_digit c L). }
  intros c z G S H; destruct c; try (destruct H); try (destruct S); cbn [show grammatical] in *; try reflexivity; rewrite <- ?app_assoc; apply Q; apply G.
Qed.
Lemma reads_neg : forall c, grammatical c -> single c -> match c with CNum _ | CImplicit _ _ _ => False | _ => True end ->
  (forall fuel s, 3 * length (show c ++ s) + 2 <= fuel -> follows s -> term fuel (show c ++ s) = Match (fst (fl c)) s) ->
  forall fuel s, 3 * length ("-"%char :: show c ++ s) + 2 <= fuel -> follows s -> term fuel ("-"%char :: show c ++ s) = Match (fst (fl (CNeg [] c))) s.
Proof.
  intros c G S H T fuel s L F. do 2 (destruct fuel as [|fuel]; [simpl in L; lia|]). rewrite (term_minus fuel _ (minus_none _ (not_digit_first c s G S H))). rewrite (show_skip c s G), (T (Datatypes.S fuel) s); [|simpl in L; lia|exact F]. rewrite (neg_other c H). reflexivity.
Qed.
Lemma text_ok : forall a s, text (a ++ s) s = a.
Proof. intros a s. unfold text. rewrite app_length. replace (length a + length s - length s) with (length a) by lia. rewrite firstn_app, firstn_all, Nat.sub_diag. simpl. apply app_nil_r. Qed.

Lemma call1_ok : forall f w0 w1 a w2, reads a -> grammatical (CCall1 f w0 w1 a w2) -> forall fuel s, 3 * length (show (CCall1 f w0 w1 a w2) ++ s) + 1 <= fuel ->
  function_call fuel (show (CCall1 f w0 w1 a w2) ++ s) = Match (fst (fl (CCall1 f w0 w1 a w2))) s.
Proof.
  intros f w0 w1 a w2 Ra (Nf & B0 & B1 & B2 & Ga & _) fuel s L. destruct fuel as [|fuel]; [lia|]. set (c := CCall1 f w0 w1 a w2) in *. assert (E : show c ++ s = f ++ w0 ++ "("%char :: w1 ++ show a ++ w2 ++ ")"%char :: s) by (cbn; rewrite <- !app_assoc; cbn; rewrite <- !app_assoc; reflexivity).
  cbn [function_call]. rewrite E at 1. rewrite (ident_ok f _ Nf) by (apply blank_word; [exact B0|reflexivity]). rewrite (skip_blank w0 _ B0), skip_stop by reflexivity. cbn [char]. change (Ascii.eqb "(" "(") with true. cbv iota.
  assert (char ")" (w1 ++ show a ++ w2 ++ ")"%char :: s) = None) as ->.
  { destruct w1 as [|x w1]; [|unfold blank in B1; inversion B1 as [|? ? Y _]; subst; destruct Y as [-> | ->]; reflexivity]. destruct (begins_bool (fun c => negb (Ascii.eqb c ")")) a Ga eq_refl) as (x & r & E' & Y). apply negb_true_iff in Y. rewrite E'. cbn [app char]. rewrite Y. reflexivity. }
  rewrite (skip_blank w1 _ B1), (show_skip a _ Ga). destruct (close_ends w2 s B2) as [C1 C2].
  assert (Len : 3 * length (show a ++ w2 ++ ")"%char :: s) + 3 <= fuel). { destruct Nf as (x & r & -> & _). rewrite E in L. rewrite !app_length in *. simpl in *. rewrite !app_length in *. simpl in *. lia. }
  rewrite (reads_expr a Ra Ga fuel _ Len C1). destruct fuel as [|fuel]; [lia|]. cbn [arguments]. repeat (first [rewrite C2|progress cbn [char]|progress change (Ascii.eqb ")" ",") with false|progress change (Ascii.eqb ")" ")") with true|progress cbv iota]). rewrite text_ok. reflexivity.
Qed.
Lemma call2_ok : forall f w0 w1 a w2 w3 b w4, reads a -> reads b -> grammatical (CCall2 f w0 w1 a w2 w3 b w4) -> forall fuel s, 3 * length (show (CCall2 f w0 w1 a w2 w3 b w4) ++ s) + 1 <= fuel ->
  function_call fuel (show (CCall2 f w0 w1 a w2 w3 b w4) ++ s) = Match (fst (fl (CCall2 f w0 w1 a w2 w3 b w4))) s.
Proof.
  intros f w0 w1 a w2 w3 b w4 Ra Rb (Nf & B0 & B1 & B2 & B3 & B4 & Ga & Gb & _) fuel s L. destruct fuel as [|fuel]; [lia|]. set (c := CCall2 f w0 w1 a w2 w3 b w4) in *. assert (E : show c ++ s = f ++ w0 ++ "("%char :: w1 ++ show a ++ w2 ++ ","%char :: w3 ++ show b ++ w4 ++ ")"%char :: s) by (cbn; repeat (rewrite <- !app_assoc; cbn); reflexivity).
  cbn [function_call]. rewrite E at 1. rewrite (ident_ok f _ Nf) by (apply blank_word; [exact B0|reflexivity]). rewrite (skip_blank w0 _ B0), skip_stop by reflexivity. cbn [char]. change (Ascii.eqb "(" "(") with true. cbv iota.
  assert (char ")" (w1 ++ show a ++ w2 ++ ","%char :: w3 ++ show b ++ w4 ++ ")"%char :: s) = None) as ->.
  { destruct w1 as [|x w1]; [|unfold blank in B1; inversion B1 as [|? ? Y _]; subst; destruct Y as [-> | ->]; reflexivity]. destruct (begins_bool (fun c => negb (Ascii.eqb c ")")) a Ga eq_refl) as (x & r & E' & Y). apply negb_true_iff in Y. rewrite E'. cbn [app char]. rewrite Y. reflexivity. }
  rewrite (skip_blank w1 _ B1), (show_skip a _ Ga). destruct (comma_ends w2 (w3 ++ show b ++ w4 ++ ")"%char :: s) B2) as [C1 C2]. destruct (close_ends w4 s B4) as [D1 D2].
  assert (Len : 3 * length (show a ++ w2 ++ ","%char :: w3 ++ show b ++ w4 ++ ")"%char :: s) + 3 <= fuel). { destruct Nf as (x & r & -> & _). rewrite E in L. repeat (rewrite !app_length in *; simpl in *). lia. }
  rewrite (reads_expr a Ra Ga fuel _ Len C1). destruct fuel as [|fuel]; [lia|]. cbn [arguments]. rewrite C2. cbn [char]. change (Ascii.eqb "," ",") with true. cbv iota. rewrite (skip_blank w3 _ B3), (show_skip b _ Gb).
  rewrite (reads_expr b Rb Gb fuel (w4 ++ ")"%char :: s)); [|repeat (rewrite !app_length in *; simpl in *); lia|exact D1]. destruct fuel as [|fuel]; [lia|]. cbn [arguments]. repeat (first [rewrite D2|progress cbn [char]|progress change (Ascii.eqb ")" ",") with false|progress change (Ascii.eqb ")" ")") with true|progress cbv iota]). rewrite text_ok. reflexivity.
Qed.
Lemma paren_ok : forall w1 c w2, reads c -> grammatical (CParen w1 c w2) -> forall fuel s, 3 * length (show (CParen w1 c w2) ++ s) + 1 <= fuel -> parens fuel (show (CParen w1 c w2) ++ s) = Match (fst (fl (CParen w1 c w2))) s.
Proof.
  intros w1 c w2 Rc (B1 & B2 & G) fuel s L. destruct fuel as [|fuel]; [lia|]. assert (E : show (CParen w1 c w2) ++ s = "("%char :: w1 ++ show c ++ w2 ++ ")"%char :: s) by (cbn; repeat (rewrite <- !app_assoc; cbn); reflexivity). rewrite E in *. cbn [parens char]. change (Ascii.eqb "(" "(") with true. cbv iota.
  rewrite (skip_blank w1 _ B1), (show_skip c _ G). destruct (close_ends w2 s B2) as [D1 D2]. rewrite (reads_expr c Rc G fuel (w2 ++ ")"%char :: s)); [|repeat (rewrite !app_length in *; simpl in *); lia|exact D1]. rewrite D2. reflexivity.
Qed.
(** A number and something after it. *)
Lemma implicit_ok : forall n w c, reads c -> grammatical (CImplicit n w c) -> forall fuel s, follows s ->
  (3 * length (show (CImplicit n w c) ++ s) + 2 <= fuel -> term fuel (show (CImplicit n w c) ++ s) = Match (ImplicitMultiply n (fst (fl c))) s) /\
  (3 * length ("-"%char :: show (CImplicit n w c) ++ s) + 2 <= fuel -> term fuel ("-"%char :: show (CImplicit n w c) ++ s) = Match (ImplicitMultiply ("-"%char :: n) (fst (fl c))) s).
Proof.
  intros n w c (_ & _ & Q & _) (Nn & B & G & Sc & X) fuel s F. assert (E : show (CImplicit n w c) ++ s = n ++ w ++ show c ++ s) by (cbn; rewrite <- !app_assoc; reflexivity). rewrite E.
  assert (M : no_more (w ++ show c ++ s)).
  { destruct w as [|x w]; [|unfold blank in B; inversion B as [|? ? Y _]; subst; destruct Y as [-> | ->]; repeat split]. cbn [app]. specialize (X eq_refl). assert (Y : exists x r, show c = x :: r /\ (letter x \/ x = "("%char)). { destruct c; try (destruct Sc); cbn [show grammatical] in *; [destruct G as (y & r & -> & L & _); eauto|eexists; eexists; split; [reflexivity|auto]|destruct G as ((y & r & -> & L & _) & _)|destruct G as ((y & r & -> & L & _) & _)]; eexists; eexists; (split; [reflexivity|auto]). }
    destruct Y as (x & r & Y & Z). rewrite Y. cbn [app]. unfold no_more. cbn [stops]. destruct Z as [Z| ->]; [|auto]. destruct (letter_not_digit x Z) as (_ & _ & Z1). rewrite (letter_not x "."), Z1; [|cbn; tauto|exact Z]. split; [reflexivity|]. split; [reflexivity|]. apply orb_false_iff. destruct (X r) as [X1 X2]. split; apply Ascii.eqb_neq; intros ->; congruence. }
  destruct (num_ok n _ Nn M) as [N1 N2]. split; intros L; (do 2 (destruct fuel as [|fuel]; [simpl in L; lia|])).
  - rewrite (term_number fuel _ _ _ (number_char n _ Nn) N1). rewrite (skip_blank w _ B), (show_skip c _ G), (Q Sc (S fuel) s); [reflexivity| |exact F]. assert (1 <= length n) by (destruct (number_first n Nn) as (y & r & -> & _); simpl; lia). rewrite !app_length in *. lia.
  - rewrite (term_number fuel ("-"%char :: n ++ w ++ show c ++ s) _ _ eq_refl N2). rewrite (skip_blank w _ B), (show_skip c _ G), (Q Sc (S fuel) s); [reflexivity| |exact F]. simpl in L. rewrite !app_length in *. lia.
Qed.
Theorem peg : forall c, grammatical c -> plain c -> reads c.
Proof.
  assert (K : forall c, grammatical c -> standalone c -> single c -> match c with CNum _ | CImplicit _ _ _ => False | _ => True end ->
    (forall fuel s, 3 * length (show c ++ s) + 1 <= fuel -> follows s -> alone fuel (show c ++ s) = Match (fst (fl c)) s) ->
    (forall fuel s, 3 * length (show c ++ s) + 2 <= fuel -> follows s -> term fuel (show c ++ s) = Match (fst (fl c)) s) -> reads c).
  { intros c G Sc S H Q T. split; [intros _; exact T|]. split; [intros _; apply reads_neg; auto|]. split; [intros _; exact Q|]. apply reads_flat; auto. }
  induction c as [n|x|w1 c IH w2|f w0 w1 a IH w2|f w0 w1 a IHa w2 w3 b IHb w4|n w c IH|w c IH|o a IHa w1 w2 b IHb]; intros G P.
  - cbn [grammatical] in G. assert (T : forall fuel s, 3 * length (show (CNum n) ++ s) + 2 <= fuel -> follows s -> term fuel (show (CNum n) ++ s) = Match (fst (fl (CNum n))) s).
    { intros fuel s L F. cbn [show] in *. assert (1 <= length n) by (destruct (number_first n G) as (y & r & -> & _); simpl; lia). rewrite app_length in L. do 2 (destruct fuel as [|fuel]; [lia|]). rewrite (term_number fuel _ _ _ (number_char n _ G) (proj1 (num_ok n s G (follows_no_more s F)))), (alone_fail fuel s F). reflexivity. }
    split; [intros _; exact T|]. split; [|split; [intros []|apply reads_flat; [exact G|exact I|exact T]]].
    intros _ fuel s L F. cbn [show] in *. simpl in L. do 2 (destruct fuel as [|fuel]; [lia|]). rewrite (term_number fuel ("-"%char :: n ++ s) _ _ eq_refl (proj2 (num_ok n s G (follows_no_more s F)))), (alone_fail fuel s F). reflexivity.
  - cbn [grammatical] in G. assert (Q : forall fuel s, 3 * length (show (CVar x) ++ s) + 1 <= fuel -> follows s -> alone fuel (show (CVar x) ++ s) = Match (fst (fl (CVar x))) s).
    { intros fuel s L F. cbn [show] in *. destruct fuel as [|fuel]; [lia|]. destruct (name_chars x s G) as (A & _). destruct (ident_none s F) as [_ B]. assert (Hi := ident_ok x s G (follows_word s F)). unfold alone. rewrite (parens_fail fuel _ A), (call_fail2 fuel _ _ _ Hi B), Hi. reflexivity. }
    apply (K (CVar x) G I I I Q). intros fuel s L F. destruct (name_chars x s G) as (A & B & C). do 2 (destruct fuel as [|fuel]; [lia|]). cbn [show] in *. rewrite (term_other fuel _ A C B). apply Q; [cbn [show]; lia|exact F].
  - assert (R := IH (proj2 (proj2 G)) P). apply (K _ G I I I).
    + intros fuel s L F. unfold alone. rewrite (paren_ok w1 c w2 R G fuel s L). reflexivity.
    + intros fuel s L F. do 2 (destruct fuel as [|fuel]; [lia|]). apply term_paren. apply (paren_ok w1 c w2 R G (S fuel) s). lia.
  - assert (R := IH (proj1 (proj2 (proj2 (proj2 (proj2 G))))) P). set (c := CCall1 f w0 w1 a w2) in *. assert (E : forall s, show c ++ s = f ++ (w0 ++ lit "(" ++ w1 ++ show a ++ w2 ++ lit ")") ++ s) by (intros s; cbn; repeat (rewrite <- !app_assoc; cbn); reflexivity).
    assert (Q : forall fuel s, 3 * length (show c ++ s) + 1 <= fuel -> follows s -> alone fuel (show c ++ s) = Match (fst (fl c)) s).
    { intros fuel s L F. unfold alone. assert (H := call1_ok f w0 w1 a w2 R G fuel s L). fold c in H. rewrite H. destruct fuel as [|fuel]; [lia|]. rewrite parens_fail; [reflexivity|]. rewrite E. apply name_chars. apply G. }
    apply (K _ G I I I Q). intros fuel s L F. do 2 (destruct fuel as [|fuel]; [lia|]). rewrite term_other; [apply Q; [lia|exact F]| | |]; rewrite E; apply name_chars; apply G.
  - destruct P as [Pa Pb]. assert (Ga : grammatical a) by apply G. assert (Gb : grammatical b) by apply G. assert (Ra := IHa Ga Pa). assert (Rb := IHb Gb Pb). set (c := CCall2 f w0 w1 a w2 w3 b w4) in *. assert (E : forall s, show c ++ s = f ++ (w0 ++ lit "(" ++ w1 ++ show a ++ w2 ++ lit "," ++ w3 ++ show b ++ w4 ++ lit ")") ++ s) by (intros s; cbn; repeat (rewrite <- !app_assoc; cbn); reflexivity).
    assert (Q : forall fuel s, 3 * length (show c ++ s) + 1 <= fuel -> follows s -> alone fuel (show c ++ s) = Match (fst (fl c)) s).
    { intros fuel s L F. unfold alone. assert (H := call2_ok f w0 w1 a w2 w3 b w4 Ra Rb G fuel s L). fold c in H. rewrite H. destruct fuel as [|fuel]; [lia|]. rewrite parens_fail; [reflexivity|]. rewrite E. apply name_chars. apply G. }
    apply (K _ G I I I Q). intros fuel s L F. do 2 (destruct fuel as [|fuel]; [lia|]). rewrite term_other; [apply Q; [lia|exact F]| | |]; rewrite E; apply name_chars; apply G.
  - assert (Gc : grammatical c) by apply G. assert (R := IH Gc P). split; [intros _ fuel s L F; apply (implicit_ok n w c R G fuel s F); exact L|]. split; [intros _ fuel s L F; apply (implicit_ok n w c R G fuel s F); exact L|]. split; [intros []|]. apply reads_flat; [exact G|exact I|]. intros fuel s L F. apply (implicit_ok n w c R G fuel s F). exact L.
  - destruct G as (B & Gc & St). destruct P as [Pc N4]. assert (S := single_strength c St N4). assert (R := IH Gc Pc).
    assert (T : forall fuel s, 3 * length (show (CNeg w c) ++ s) + 2 <= fuel -> follows s -> term fuel (show (CNeg w c) ++ s) = Match (fst (fl (CNeg w c))) s).
    { intros fuel s L F. assert (E : show (CNeg w c) ++ s = "-"%char :: w ++ show c ++ s) by (cbn; rewrite <- app_assoc; reflexivity). rewrite E in *. destruct w as [|x w]; [apply R; auto|]. do 2 (destruct fuel as [|fuel]; [simpl in L; lia|]).
      rewrite term_minus; [|apply minus_none; unfold blank in B; inversion B as [|? ? Y _]; subst; destruct Y as [-> | ->]; reflexivity]. rewrite (skip_blank (x :: w) _ B), (show_skip c _ Gc). destruct R as (T & _). rewrite (T S (Datatypes.S fuel) s); [reflexivity| |exact F]. rewrite !app_length in *. simpl in L. rewrite !app_length in *. lia. }
    assert (G : grammatical (CNeg w c)) by (split; [exact B|split; assumption]). split; [intros _; exact T|]. split; [intros _; apply reads_neg; auto; exact I|]. split; [intros []|]. apply reads_flat; [exact G|exact I|exact T].
  - destruct G as (Ga & Gb & B1 & B2 & _). destruct P as (Pa & Pb & _). destruct (IHa Ga Pa) as (_ & _ & _ & Fa). destruct (IHb Gb Pb) as (_ & _ & _ & Fb). split; [intros []|]. split; [intros []|]. split; [intros []|].
    intros fuel s L F. assert (E : show (CInfix o a w1 w2 b) ++ s = show a ++ w1 ++ symbol o ++ w2 ++ show b ++ s) by (cbn; rewrite <- !app_assoc; reflexivity). rewrite E in *. clear E.
    destruct (Fa fuel _ L (symbol_follows o w1 _ B1)) as (r0 & L0 & T & H). exists r0. split; [exact L0|]. split; [exact T|]. intros f l r Lf Hl. cbn [fl snd]. rewrite <- app_assoc. apply H; [exact Lf|]. intros f' Lf'. destruct f' as [|f']; [lia|]. cbn [operands]. rewrite (symbol_skip o w1 _ B1), (infix_ok o b s Gb w2 B2), (skip_blank w2 _ B2), (show_skip b _ Gb).
    assert (Ls : 1 <= length (symbol o)) by (destruct o; simpl; lia). assert (Lx : 3 * length (show b ++ s) + 2 <= f') by (rewrite !app_length in *; lia). destruct (Fb f' s Lx F) as (r1 & L1 & Tb & Hb). rewrite Tb. cbn [app]. rewrite (Hb f' l r); [reflexivity|lia|exact Hl].
Qed.
(** The whole string. *)
Theorem parameter_ok : forall w1 c w2, blank w1 -> blank w2 -> grammatical c -> plain c -> parameter (w1 ++ show c ++ w2) = Match (Expr (fst (fl c)) (snd (fl c))) [].
Proof.
  intros w1 c w2 B1 B2 G P. unfold parameter. rewrite (skip_blank w1 _ B1), (show_skip c _ G). rewrite (reads_expr c (peg c G P) G); [|rewrite !app_length; lia|].
  - rewrite <- (app_nil_r w2), (skip_blank w2 [] B2). reflexivity.
  - unfold ends. rewrite <- (app_nil_r w2), (skip_blank w2 [] B2). exact I.
Qed.
