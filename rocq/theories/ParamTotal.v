(** The grammar on any string. *)
From Coq Require Import List Bool Arith String Ascii Lia.
From Verif Require Import ParamModel ParamSpec ParamProofs.
Import ListNotations.
Local Open Scope list_scope.

(** ** Characters *)
Lemma span_parts : forall f s a b, span f s = (a, b) -> s = a ++ b /\ forallb f a = true.
Proof.
  intros f. induction s as [|c s IH]; intros a b H; cbn [span] in H; [injection H as <- <-; auto|]. destruct (f c) eqn:E; [|injection H as <- <-; auto]. destruct (span f s) as [a' b']. injection H as <- <-. destruct (IH a' b' eq_refl) as [-> X]. split; [reflexivity|]. cbn [forallb]. rewrite E. exact X.
Qed.
Lemma space_cases : forall c, is_space c = true -> c = " "%char \/ c = ascii_of_nat 9.
Proof. intros c H. unfold is_space in H. apply orb_true_iff in H. destruct H as [H|H]; apply Ascii.eqb_eq in H; auto. Qed.
Lemma skip_parts : forall s, exists w, blank w /\ s = w ++ skip s.
Proof. intros s. unfold skip. destruct (span is_space s) as [a b] eqn:E. apply span_parts in E. destruct E as [-> E]. exists a. split; [|reflexivity]. unfold blank. rewrite Forall_forall. rewrite forallb_forall in E. intros c J. apply space_cases. apply E. exact J. Qed.
Lemma char_parts : forall x s r, char x s = Some r -> s = x :: r.
Proof. intros x [|c s] r H; [discriminate|]. cbn [char] in H. destruct (Ascii.eqb c x) eqn:E; [|discriminate]. apply Ascii.eqb_eq in E. congruence. Qed.
Lemma all_chars : forall (P : ascii -> bool), (forall a b c d e f g h, P (Ascii a b c d e f g h) = true) -> forall c, P c = true.
Proof. intros P H [a b c d e f g h]. apply H. Qed.
Lemma digit_is : forall c, is_digit c = true -> digit c.
Proof.
  intros c H. assert (X : implb (is_digit c) (existsb (Ascii.eqb c) (lit "0123456789")) = true) by (destruct c as [[] [] [] [] [] [] [] []]; reflexivity). rewrite H in X. cbn [implb] in X. apply existsb_exists in X. destruct X as (y & J & E). apply Ascii.eqb_eq in E. subst y. exact J.
Qed.
Lemma alpha_is : forall c, is_alpha c = true -> letter c.
Proof.
  intros c H. assert (X : implb (is_alpha c) (existsb (Ascii.eqb c) (lit "abcdefghijklmnopqrstuvwxyzABCDEFGHIJKLMNOPQRSTUVWXYZ")) = true) by (destruct c as [[] [] [] [] [] [] [] []]; reflexivity). rewrite H in X. cbn [implb] in X. apply existsb_exists in X. destruct X as (y & J & E). apply Ascii.eqb_eq in E. subst y. exact J.
Qed.
Lemma nonzero_is : forall c, is_nonzero_digit c = true -> digit c /\ c <> "0"%char.
Proof.
  intros c H. split; [|intros ->; discriminate]. apply digit_is. unfold is_nonzero_digit, is_digit in *. apply andb_true_iff in H. destruct H as [A B]. apply andb_true_iff. split; [|exact B]. apply Nat.leb_le in A. apply Nat.leb_le. lia.
Qed.
Lemma digits_are : forall a, forallb is_digit a = true -> Forall digit a.
Proof. intros a H. rewrite forallb_forall in H. apply Forall_forall. intros c J. apply digit_is. apply H. exact J. Qed.

(** ** Numbers and names *)
Lemma ident_parts : forall s x r, ident s = Some (x, r) -> s = x ++ r /\ name x.
Proof.
  intros [|c s] x r H; [discriminate|]. cbn [ident] in H. destruct (is_alpha c) eqn:A; [|discriminate]. match type of H with context [span ?f s] => destruct (span f s) as [a b] eqn:E end. injection H as <- <-. apply span_parts in E. destruct E as [-> E]. split; [reflexivity|]. exists c, a. split; [reflexivity|]. split; [apply alpha_is; exact A|]. rewrite forallb_forall in E. apply Forall_forall. intros y J. specialize (E y J). cbv beta in E. apply orb_true_iff in E. destruct E as [E|E]; [|right; right; apply Ascii.eqb_eq; exact E]. apply orb_true_iff in E. destruct E as [E|E]; [left; apply alpha_is; exact E|right; left; apply digit_is; exact E].
Qed.
Lemma int_parts : forall s i r, int_part s = Some (i, r) -> s = i ++ r /\ integer i.
Proof.
  intros [|c s] i r H; [discriminate|]. cbn [int_part] in H. destruct (Ascii.eqb c "0") eqn:Z; [apply Ascii.eqb_eq in Z; subst c; injection H as <- <-; split; [reflexivity|left; reflexivity]|]. destruct (is_nonzero_digit c) eqn:N; [|discriminate]. destruct (span is_digit s) as [a b] eqn:E. injection H as <- <-. apply span_parts in E. destruct E as [-> E]. split; [reflexivity|]. right. destruct (nonzero_is c N) as [D D']. exists c, a. repeat split; auto. apply digits_are. exact E.
Qed.
Lemma frac_parts : forall s i r, frac_part s = (i, r) -> s = i ++ r /\ fraction i.
Proof.
  intros [|c s] i r H; cbn [frac_part] in H; [injection H as <- <-; split; [reflexivity|left; reflexivity]|]. destruct (Ascii.eqb c ".") eqn:Z; [|injection H as <- <-; split; [reflexivity|left; reflexivity]]. apply Ascii.eqb_eq in Z. subst c. destruct (span is_digit s) as [a b] eqn:E. injection H as <- <-. apply span_parts in E. destruct E as [-> E]. split; [reflexivity|]. right. exists a. split; [reflexivity|apply digits_are; exact E].
Qed.
Lemma sign_parts : forall s i r, sign_part s = (i, r) -> s = i ++ r /\ (i = [] \/ i = lit "+" \/ i = lit "-").
Proof.
  intros [|c s] i r H; cbn [sign_part] in H; [injection H as <- <-; auto|]. destruct (Ascii.eqb c "+" || Ascii.eqb c "-") eqn:E; injection H as <- <-; split; auto. right. apply orb_true_iff in E. destruct E as [E|E]; apply Ascii.eqb_eq in E; subst c; auto.
Qed.
Lemma exp_parts : forall s i r, exp_part s = (i, r) -> s = i ++ r /\ exponent i.
Proof.
  intros [|c s] i r H; cbn [exp_part] in H; [injection H as <- <-; split; [reflexivity|left; reflexivity]|]. destruct (Ascii.eqb c "e" || Ascii.eqb c "E") eqn:Z; [|injection H as <- <-; split; [reflexivity|left; reflexivity]].
  destruct (sign_part s) as [sg r1] eqn:E1. apply sign_parts in E1. destruct E1 as [-> Sg]. destruct (span is_digit r1) as [d r2] eqn:E2. apply span_parts in E2. destruct E2 as [-> E2]. destruct d as [|x d]; [injection H as <- <-; split; [reflexivity|left; reflexivity]|]. injection H as <- <-. split; [cbn [app]; rewrite <- app_assoc; reflexivity|]. right. exists c, sg, (x :: d). split; [reflexivity|]. split; [apply orb_true_iff in Z; destruct Z as [Z|Z]; apply Ascii.eqb_eq in Z; auto|]. split; [exact Sg|]. split; [discriminate|]. apply digits_are. exact E2.
Qed.
Lemma num_parts : forall s n r, num s = Some (n, r) -> s = n ++ r /\ signed n.
Proof.
  intros s n r H. unfold num in H. destruct (char "-" s) as [s0|] eqn:C.
  - apply char_parts in C. subst s. destruct (int_part s0) as [[i s2]|] eqn:E1; [|discriminate]. apply int_parts in E1. destruct E1 as [-> I]. destruct (frac_part s2) as [f s3] eqn:E2. apply frac_parts in E2. destruct E2 as [-> F]. destruct (exp_part s3) as [e s4] eqn:E3. apply exp_parts in E3. destruct E3 as [-> X]. injection H as <- <-. split; [cbn [app]; rewrite <- !app_assoc; reflexivity|]. right. exists (i ++ f ++ e). split; [reflexivity|]. exists i, f, e. auto.
  - destruct (int_part s) as [[i s2]|] eqn:E1; [|discriminate]. apply int_parts in E1. destruct E1 as [-> I]. destruct (frac_part s2) as [f s3] eqn:E2. apply frac_parts in E2. destruct E2 as [-> F]. destruct (exp_part s3) as [e s4] eqn:E3. apply exp_parts in E3. destruct E3 as [-> X]. injection H as <- <-. split; [cbn [app]; rewrite <- !app_assoc; reflexivity|]. left. exists i, f, e. auto.
Qed.
Lemma signed_length : forall n, signed n -> 1 <= length n.
Proof. intros n [H|(m & -> & H)]; [|simpl; lia]. destruct (number_first n H) as (c & r & -> & _). simpl. lia. Qed.
Lemma infix_parts : forall s o r, infix_operator s = Some (o, r) -> s = symbol o ++ r.
Proof.
  intros [|c s] o r H; [discriminate|]. cbn [infix_operator] in H. destruct (Ascii.eqb c "+") eqn:A; [apply Ascii.eqb_eq in A; subst c; injection H as <- <-; reflexivity|]. destruct (Ascii.eqb c "-") eqn:B; [apply Ascii.eqb_eq in B; subst c; injection H as <- <-; reflexivity|]. destruct (Ascii.eqb c "*") eqn:D.
  - apply Ascii.eqb_eq in D. subst c. destruct (char "*" s) as [s'|] eqn:E; [apply char_parts in E; subst s; injection H as <- <-; reflexivity|injection H as <- <-; reflexivity].
  - destruct (Ascii.eqb c "/") eqn:F; [|discriminate]. apply Ascii.eqb_eq in F. subst c. injection H as <- <-. reflexivity.
Qed.

(** ** Enough fuel, and what is read *)
Definition good {A} (R : A -> str -> Prop) (s : str) (m : match_ A) : Prop :=
  match m with Fuel => False | Fail => True | Match a r => exists t, s = t ++ r /\ R a t end.
Lemma good_orelse : forall A (R : A -> str -> Prop) s a b, good R s a -> good R s b -> good R s (orelse a b).
Proof. intros A R s [| |x r] b H H'; cbn [orelse]; auto. Qed.
Definition at_ (fuel : nat) : Prop :=
  (forall s, 3 * length s + 3 <= fuel -> good (fun p t => derives_expr p t /\ 1 <= length t) s (expr fuel s)) /\
  (forall s, 3 * length s + 1 <= fuel -> good derives_ops s (operands fuel s)) /\
  (forall s, 3 * length s + 2 <= fuel -> good (fun p t => derives p t /\ 1 <= length t) s (term fuel s)) /\
  (forall s, 3 * length s + 1 <= fuel -> good (fun p t => derives p t /\ 1 <= length t /\ match p with Expr _ _ => True | _ => False end) s (parens fuel s)) /\
  (forall s, 3 * length s + 1 <= fuel -> good (fun p t => derives p t /\ 1 <= length t /\ match p with FunctionCall _ _ _ => True | _ => False end) s (function_call fuel s)) /\
  (forall s, 3 * length s + 1 <= fuel -> good derives_args s (arguments fuel s)).
Lemma text_parts : forall a s, text (a ++ s) s = a.
Proof. intros a s. unfold text. rewrite app_length. replace (length a + length s - length s) with (length a) by lia. rewrite firstn_app, firstn_all, Nat.sub_diag. simpl. apply app_nil_r. Qed.
Ltac len := simpl in *; repeat (rewrite !app_length in *; simpl in *); try lia.
Lemma total : forall fuel, at_ fuel.
Proof.
  induction fuel as [|fuel (IHe & IHo & IHt & IHp & IHc & IHa)]; [repeat split; intros s L; lia|]. split; [|split; [|split; [|split; [|split]]]]; intros s L.
  - cbn [expr]. assert (T := IHt s ltac:(lia)). destruct (term fuel s) as [| |t r]; [exact T|exact I|]. destruct T as (a & -> & D & La). assert (O := IHo r ltac:(len)). destruct (operands fuel r) as [| |l r']; [exact O|exact I|]. destruct O as (b & -> & Do). exists (a ++ b). split; [rewrite app_assoc; reflexivity|]. split; [constructor; assumption|len].
  - cbn [operands]. destruct (skip_parts s) as (w1 & B1 & E1). destruct (infix_operator (skip s)) as [[o r]|] eqn:Q; [|exists []; split; [reflexivity|constructor]]. apply infix_parts in Q. destruct (skip_parts r) as (w2 & B2 & E2).
    assert (Ls : 1 <= length (symbol o)) by (destruct o; simpl; lia). assert (E : s = w1 ++ symbol o ++ w2 ++ skip r) by (rewrite <- E2, <- Q; exact E1). assert (T := IHt (skip r) ltac:(rewrite E in L; len)). destruct (term fuel (skip r)) as [| |t r']; [exact T|exists []; split; [reflexivity|constructor]|]. destruct T as (a & Ea & D & La). rewrite Ea in E. assert (O := IHo r' ltac:(rewrite E in L; len)). destruct (operands fuel r') as [| |l r'']; [exact O|exact I|]. destruct O as (b & -> & Do). exists (w1 ++ symbol o ++ w2 ++ a ++ b). split; [rewrite E, <- !app_assoc; reflexivity|]. constructor; assumption.
  - cbn [term]. assert (V : forall s, good (fun p t => derives p t /\ 1 <= length t /\ match p with Num _ | ImplicitMultiply _ _ | UnaryMinus _ => False | _ => True end) s (match ident s with Some (x, r) => Match (Ident x) r | None => Fail end)).
    { intros z. destruct (ident z) as [[x r]|] eqn:Q; [|exact I]. apply ident_parts in Q. destruct Q as [-> N]. exists x. split; [reflexivity|]. split; [constructor; exact N|]. split; [|exact I]. destruct N as (c & r' & -> & _). simpl. lia. }
    apply good_orelse. { assert (P := IHp s ltac:(lia)). destruct (parens fuel s) as [| |e r]; [exact P|exact I|]. destruct P as (a & E & D & La & _). exists a. auto. }
    apply good_orelse. { destruct (num s) as [[n r]|] eqn:N; [|exact I]. apply num_parts in N. destruct N as [E N]. assert (Ln := signed_length n N). destruct (skip_parts r) as (w & B & Er). cbv zeta.
      set (m := orelse _ _). assert (M : good (fun p t => derives p t /\ 1 <= length t /\ match p with Num _ | ImplicitMultiply _ _ | UnaryMinus _ => False | _ => True end) (skip r) m).
      { assert (Lr : 3 * length (skip r) + 1 <= fuel) by (assert (X := skip_length r); rewrite E in L; len). unfold m. apply good_orelse; [|apply good_orelse; [|apply V]].
        - assert (P := IHp _ Lr). destruct (parens fuel (skip r)) as [| |e r']; [exact P|exact I|]. destruct P as (a & Ea & D & La & X). exists a. split; [exact Ea|]. split; [exact D|]. split; [exact La|]. destruct e; auto.
        - assert (P := IHc _ Lr). destruct (function_call fuel (skip r)) as [| |e r']; [exact P|exact I|]. destruct P as (a & Ea & D & La & X). exists a. split; [exact Ea|]. split; [exact D|]. split; [exact La|]. destruct e; auto. }
      destruct m as [| |t r']; [exact M|exact I|]. destruct M as (a & Ea & D & La & X). exists (n ++ w ++ a). split; [rewrite E, Er, Ea, <- !app_assoc; reflexivity|]. split; [constructor; auto; destruct t; auto|len]. }
    apply good_orelse. { destruct (num s) as [[n r]|] eqn:N; [|exact I]. apply num_parts in N. destruct N as [E N]. exists n. split; [exact E|]. split; [constructor; exact N|apply signed_length; exact N]. }
    apply good_orelse. { destruct (char "-" s) as [r|] eqn:C; [|exact I]. apply char_parts in C. destruct (skip_parts r) as (w & B & E). assert (Lr := skip_length r). assert (T := IHt (skip r) ltac:(subst s; len)). destruct (term fuel (skip r)) as [| |t r']; [exact T|exact I|]. destruct T as (a & Ea & D & La). exists (lit "-" ++ w ++ a). split; [rewrite C, E, Ea; cbn; rewrite <- !app_assoc; reflexivity|]. split; [constructor; assumption|simpl; lia]. }
    apply good_orelse. { assert (P := IHc s ltac:(lia)). destruct (function_call fuel s) as [| |e r]; [exact P|exact I|]. destruct P as (a & E & D & La & _). exists a. auto. }
    specialize (V s). destruct (match ident s with Some (x, r) => Match (Ident x) r | None => Fail end) as [| |t r]; [exact V|exact I|]. destruct V as (a & E & D & La & _). exists a. auto.
  - cbn [parens]. destruct (char "(" s) as [r|] eqn:C; [|exact I]. apply char_parts in C. destruct (skip_parts r) as (w & B & E). assert (Lr := skip_length r). assert (T := IHe (skip r) ltac:(subst s; len)). destruct (expr fuel (skip r)) as [| |e r']; [exact T|exact I|]. destruct T as (a & Ea & D & La). destruct (skip_parts r') as (w' & B' & E'). destruct (char ")" (skip r')) as [r''|] eqn:C'; [|exact I]. apply char_parts in C'. exists (lit "(" ++ w ++ a ++ w' ++ lit ")"). split; [rewrite C, E, Ea, E', C'; cbn; repeat (rewrite <- !app_assoc; cbn); reflexivity|]. inversion D; subst e. split; [constructor; auto; constructor; assumption|]. split; [simpl; lia|exact I].
  - cbn [function_call]. destruct (ident s) as [[x r]|] eqn:Q; [|exact I]. apply ident_parts in Q. destruct Q as [Es Nx]. destruct (skip_parts r) as (w0 & B0 & E0). destruct (char "(" (skip r)) as [r1|] eqn:C1; [|exact I]. apply char_parts in C1. assert (Lx : 1 <= length x) by (destruct Nx as (c & r' & -> & _); simpl; lia).
    destruct (char ")" r1) as [r2|] eqn:C2.
    { apply char_parts in C2. assert (Z : s = (x ++ w0 ++ lit "()") ++ r2) by (rewrite Es, E0, C1, C2; cbn; repeat (rewrite <- !app_assoc; cbn); reflexivity). rewrite Z at 2. rewrite text_parts. exists (x ++ w0 ++ lit "()"). split; [exact Z|]. split; [constructor; assumption|]. split; [len|exact I]. }
    destruct (skip_parts r1) as (w1 & B1 & E1). assert (Z : s = x ++ w0 ++ "("%char :: w1 ++ skip r1) by (rewrite Es, E0, C1; rewrite E1 at 1; reflexivity). assert (T := IHe (skip r1) ltac:(rewrite Z in L; len)). destruct (expr fuel (skip r1)) as [| |e r2]; [exact T|exact I|]. destruct T as (a & Ea & D & La). rewrite Ea in Z. assert (A := IHa r2 ltac:(rewrite Z in L; len)). destruct (arguments fuel r2) as [| |l r3]; [exact A|exact I|]. destruct A as (b & Eb & Db). rewrite Eb in Z. cbv zeta.
    destruct (skip_parts r3) as (w2 & B2 & E2). destruct (char "," (skip r3)) as [r4|] eqn:C3.
    + apply char_parts in C3. destruct (skip_parts r4) as (w3 & B3 & E3). destruct (char ")" (skip r4)) as [r5|] eqn:C4; [|exact I]. apply char_parts in C4. assert (Z' : s = (x ++ w0 ++ lit "(" ++ w1 ++ a ++ b ++ w2 ++ lit "," ++ w3 ++ lit ")") ++ r5). { rewrite Z, E2, C3, E3, C4. cbn. repeat (rewrite <- !app_assoc; cbn). reflexivity. }
      rewrite Z' at 2. rewrite text_parts. eexists. split; [exact Z'|]. split; [|split; [len|exact I]]. apply (d_call x w0 w1 e a w2 l b); auto. right. exists w3. auto.
    + destruct (char ")" (skip r3)) as [r5|] eqn:C4; [|exact I]. apply char_parts in C4. assert (Z' : s = (x ++ w0 ++ lit "(" ++ w1 ++ a ++ b ++ w2 ++ lit ")") ++ r5). { rewrite Z, E2, C4. cbn. repeat (rewrite <- !app_assoc; cbn). reflexivity. }
      rewrite Z' at 2. rewrite text_parts. eexists. split; [exact Z'|]. split; [|split; [len|exact I]]. apply (d_call x w0 w1 e a w2 l b); auto.
  - cbn [arguments]. destruct (skip_parts s) as (w1 & B1 & E1). destruct (char "," (skip s)) as [r|] eqn:C; [|exists []; split; [reflexivity|constructor]]. apply char_parts in C. destruct (skip_parts r) as (w2 & B2 & E2). assert (E : s = w1 ++ ","%char :: w2 ++ skip r) by (rewrite E1 at 1; rewrite C; rewrite E2 at 1; reflexivity). assert (T := IHe (skip r) ltac:(rewrite E in L; len)). destruct (expr fuel (skip r)) as [| |e r']; [exact T|exists []; split; [reflexivity|constructor]|]. destruct T as (a & Ea & D & La). rewrite Ea in E. assert (O := IHa r' ltac:(rewrite E in L; len)). destruct (arguments fuel r') as [| |l r'']; [exact O|exact I|]. destruct O as (b & -> & Do). exists (w1 ++ lit "," ++ w2 ++ a ++ b). split; [rewrite E; cbn; repeat (rewrite <- !app_assoc; cbn); reflexivity|]. constructor; assumption.
Qed.
Theorem parameter_total : forall s, match parameter s with
  | Fuel => False
  | Fail => True
  | Match p r => r = [] /\ exists w1 a w2, blank w1 /\ blank w2 /\ s = w1 ++ a ++ w2 /\ derives_expr p a
  end.
Proof.
  intros s. unfold parameter. assert (Ls := skip_length s). destruct (total (3 * length s + 4)) as (E & _). specialize (E (skip s) ltac:(lia)). destruct (expr _ (skip s)) as [| |p r]; [exact E|exact I|]. destruct E as (a & Ea & D & _). destruct (skip_parts s) as (w1 & B1 & E1). destruct (skip_parts r) as (w2 & B2 & E2). destruct (skip r); [|exact I]. split; [reflexivity|]. rewrite app_nil_r in E2. subst r. exists w1, a, w2. split; [exact B1|]. split; [exact B2|]. split; [congruence|exact D].
Qed.
