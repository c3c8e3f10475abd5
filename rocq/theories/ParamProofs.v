(** Proofs about parameter expressions. *)
From Coq Require Import List Bool Arith String Ascii Lia.
From Verif Require Import ParamModel ParamSpec.
Import ListNotations.
Local Open Scope list_scope.
Notation length := List.length.
Local Arguments Ascii.eqb !a !b.

(** ** Characters *)
Lemma inl : forall (P : ascii -> bool) L c, forallb P L = true -> In c L -> P c = true.
Proof. intros P L c H I. rewrite forallb_forall in H. apply H. exact I. Qed.
Definition stops (f : ascii -> bool) (s : str) : Prop := match s with [] => True | c :: _ => f c = false end.
Lemma span_app : forall f a b, forallb f a = true -> stops f b -> span f (a ++ b) = (a, b).
Proof.
  intros f. induction a as [|c a IH]; intros b A B; cbn [app span].
  - destruct b as [|x b]; [reflexivity|]. cbn [span]. cbn [stops] in B. rewrite B. reflexivity.
  - cbn [forallb] in A. apply andb_true_iff in A. destruct A as [-> A]. rewrite (IH b A B). reflexivity.
Qed.
Lemma blank_spaces : forall w, blank w -> forallb is_space w = true.
Proof. intros w H. apply forallb_forall. intros c J. unfold blank in H. rewrite Forall_forall in H. destruct (H c J) as [-> | ->]; reflexivity. Qed.
Lemma skip_blank : forall w s, blank w -> skip (w ++ s) = skip s.
Proof.
  intros w s H. apply blank_spaces in H. unfold skip. induction w as [|c w IH]; [reflexivity|]. cbn [forallb] in H. apply andb_true_iff in H. destruct H as [A B]. cbn [app span]. rewrite A. specialize (IH B). destruct (span is_space (w ++ s)). exact IH.
Qed.
Lemma skip_stop : forall s, stops is_space s -> skip s = s.
Proof. intros [|c s] H; [reflexivity|]. cbn [stops] in H. unfold skip. cbn [span]. rewrite H. reflexivity. Qed.
Lemma skip_length : forall s, length (skip s) <= length s.
Proof. unfold skip. induction s as [|c s IH]; [auto|]. cbn [span]. destruct (is_space c); [|auto]. destruct (span is_space s). cbn [snd] in *. simpl. lia. Qed.

Lemma inl_letter : forall (P : ascii -> bool) c, forallb P (lit "abcdefghijklmnopqrstuvwxyzABCDEFGHIJKLMNOPQRSTUVWXYZ") = true -> letter c -> P c = true.
Proof. intros P c. apply inl. Qed.
Lemma inl_digit : forall (P : ascii -> bool) c, forallb P (lit "0123456789") = true -> digit c -> P c = true.
Proof. intros P c. apply inl. Qed.
Lemma digits_ok : forall r, Forall digit r -> forallb is_digit r = true.
Proof. intros r H. apply forallb_forall. intros c J. rewrite Forall_forall in H. eapply inl; [|exact (H c J)]. reflexivity. Qed.
Definition word (c : ascii) : bool := is_alpha c || is_digit c || Ascii.eqb c "_".
Lemma word_ok : forall r, Forall (fun c => letter c \/ digit c \/ c = "_"%char) r -> forallb word r = true.
Proof.
  intros r H. apply forallb_forall. intros c J. rewrite Forall_forall in H. destruct (H c J) as [X|[X| ->]]; [| |reflexivity]; revert X; apply inl; reflexivity.
Qed.
Lemma letter_alpha : forall c, letter c -> is_alpha c = true.
Proof. intros c. apply inl. reflexivity. Qed.
Lemma letter_not : forall c x, In x (lit "(-+*/),0 .") -> letter c -> Ascii.eqb c x = false.
Proof. intros c x J L. assert (X := inl_letter (fun c => forallb (fun x => negb (Ascii.eqb c x)) (lit "(-+*/),0 .")) c eq_refl L). cbv beta in X. rewrite forallb_forall in X. specialize (X x J). apply negb_true_iff in X. exact X. Qed.
Lemma letter_not_digit : forall c, letter c -> is_nonzero_digit c = false /\ is_space c = false /\ is_digit c = false.
Proof. intros c L. assert (X := inl_letter (fun c => negb (is_nonzero_digit c) && (negb (is_space c) && negb (is_digit c))) c eq_refl L). cbv beta in X. apply andb_true_iff in X. destruct X as [A X]. apply andb_true_iff in X. destruct X as [B C]. apply negb_true_iff in A, B, C. auto. Qed.
Lemma digit_not : forall c x, In x (lit "(-+*/), .eE") -> digit c -> Ascii.eqb c x = false.
Proof. intros c x J L. assert (X := inl_digit (fun c => forallb (fun x => negb (Ascii.eqb c x)) (lit "(-+*/), .eE")) c eq_refl L). cbv beta in X. rewrite forallb_forall in X. specialize (X x J). apply negb_true_iff in X. exact X. Qed.
Lemma digit_not_alpha : forall c, digit c -> is_alpha c = false /\ is_space c = false.
Proof. intros c L. assert (X := inl_digit (fun c => negb (is_alpha c) && negb (is_space c)) c eq_refl L). cbv beta in X. apply andb_true_iff in X. destruct X as [A B]. apply negb_true_iff in A, B. auto. Qed.
Lemma nonzero : forall c, digit c -> c <> "0"%char -> is_nonzero_digit c = true /\ Ascii.eqb c "0" = false.
Proof. intros c L N. split; [|apply Ascii.eqb_neq; exact N]. unfold digit in L. cbn in L. destruct L as [<-|L]; [congruence|]. repeat (destruct L as [<-|L]; [reflexivity|]). destruct L. Qed.

(** ** What comes after a term *)
Definition follows (s : str) : Prop := match skip s with [] => True | c :: _ => In c (lit "+-*/),") end.
Definition ends (s : str) : Prop := match skip s with [] => True | c :: _ => In c (lit "),") end.
Lemma ends_follows : forall s, ends s -> follows s.
Proof. intros s H. unfold ends, follows in *. destruct (skip s) as [|c r]; [exact I|]. cbn in *. intuition. Qed.
Lemma follows_first : forall s, follows s -> match s with [] => True | c :: _ => In c (lit "+-*/), ") \/ c = ascii_of_nat 9 end.
Proof.
  intros [|c s] H; [exact I|]. unfold follows, skip in H. cbn [span] in H. destruct (is_space c) eqn:E.
  - unfold is_space in E. apply orb_true_iff in E. destruct E as [E|E]; apply Ascii.eqb_eq in E; subst c; [left; cbn; intuition|right; reflexivity].
  - cbn [snd] in H. left. cbn in *. intuition.
Qed.
Lemma follows_bool : forall (P : ascii -> bool) s, follows s -> forallb P (lit "+-*/), ") = true -> P (ascii_of_nat 9) = true -> match s with [] => True | c :: _ => P c = true end.
Proof. intros P s H A B. apply follows_first in H. destruct s as [|c s]; [exact I|]. destruct H as [H| ->]; [eapply inl; eauto|exact B]. Qed.
Lemma skip_first : forall (P : ascii -> bool) s, follows s -> forallb P (lit "+-*/),") = true -> match skip s with [] => True | c :: _ => P c = true end.
Proof. intros P s H A. unfold follows in H. destruct (skip s) as [|c r]; [exact I|]. eapply inl; eauto. Qed.

(** ** Numbers *)
Lemma int_ok : forall i s, integer i -> stops is_digit s -> int_part (i ++ s) = Some (i, s).
Proof.
  intros i s [->|(c & r & -> & D & N & R)] H; [reflexivity|]. destruct (nonzero c D N) as [A B]. cbn [app int_part]. rewrite B, A, (span_app _ r s (digits_ok r R) H). reflexivity.
Qed.
Lemma frac_ok : forall f s, fraction f -> stops is_digit s -> stops (fun c => Ascii.eqb c ".") s -> frac_part (f ++ s) = (f, s).
Proof.
  intros f s [->|(r & -> & R)] H H'.
  - destruct s as [|c s]; [reflexivity|]. cbn [app frac_part]. cbn [stops] in H'. rewrite H'. reflexivity.
  - cbn [app frac_part]. change (Ascii.eqb "." ".") with true. cbv iota. rewrite (span_app _ r s (digits_ok r R) H). reflexivity.
Qed.
Lemma exp_ok : forall e s, exponent e -> stops is_digit s -> stops (fun c => Ascii.eqb c "e" || Ascii.eqb c "E") s -> exp_part (e ++ s) = (e, s).
Proof.
  intros e s [->|(x & sg & r & -> & X & Sg & N & R)] H H'.
  - destruct s as [|c s]; [reflexivity|]. cbn [app exp_part]. cbn [stops] in H'. rewrite H'. reflexivity.
  - cbn [app exp_part]. assert (Ascii.eqb x "e" || Ascii.eqb x "E" = true) as -> by (destruct X as [-> | ->]; reflexivity). rewrite <- app_assoc.
    assert (sign_part (sg ++ r ++ s) = (sg, r ++ s)) as ->.
    { destruct Sg as [->|[->| ->]]; [|reflexivity|reflexivity]. cbn [app]. destruct r as [|c r]; [congruence|]. inversion R as [|? ? D _]; subst. cbn [app sign_part]. rewrite (digit_not c "+"), (digit_not c "-"); auto; cbn; intuition. }
    rewrite (span_app _ r s (digits_ok r R) H). destruct r as [|c r]; [congruence|]. reflexivity.
Qed.
Lemma exponent_stops : forall e s, exponent e -> stops is_digit s -> stops (fun c => Ascii.eqb c ".") s -> stops is_digit (e ++ s) /\ stops (fun c => Ascii.eqb c ".") (e ++ s).
Proof. intros e s [->|(x & sg & r & -> & X & _)] H H'; [auto|]. cbn. destruct X as [-> | ->]; auto. Qed.
Lemma fraction_stops : forall f s, fraction f -> stops is_digit s -> stops is_digit (f ++ s).
Proof. intros f s [->|(r & -> & _)] H; [auto|]. reflexivity. Qed.
Definition no_more (s : str) : Prop := stops is_digit s /\ stops (fun c => Ascii.eqb c ".") s /\ stops (fun c => Ascii.eqb c "e" || Ascii.eqb c "E") s.
Lemma number_first : forall n, number n -> exists c r, n = c :: r /\ digit c.
Proof. intros n (i & f & e & -> & I & _). destruct I as [->|(c & r & -> & D & _)]; [exists "0"%char, (f ++ e); split; [reflexivity|cbn; auto]|exists c, (r ++ f ++ e); split; [reflexivity|exact D]]. Qed.
Lemma num_ok : forall n s, number n -> no_more s -> num (n ++ s) = Some (n, s) /\ num ("-"%char :: n ++ s) = Some ("-"%char :: n, s).
Proof.
  intros n s N (H1 & H2 & H3). destruct (number_first n N) as (c & r0 & En & D). destruct N as (i & f & e & E & I & F & X).
  assert (Q : int_part (n ++ s) = Some (i, f ++ e ++ s)). { rewrite E, <- !app_assoc. destruct (exponent_stops e s X H1 H2) as [A B]. apply int_ok; [exact I|]. apply fraction_stops; [exact F|exact A]. }
  assert (Q1 : frac_part (f ++ e ++ s) = (f, e ++ s)). { destruct (exponent_stops e s X H1 H2) as [A B]. apply frac_ok; auto. }
  assert (Q2 := exp_ok e s X H1 H3). unfold num.
  assert (char "-" (n ++ s) = None) as ->. { rewrite En. cbn [app char]. rewrite (digit_not c "-"); [reflexivity|cbn; intuition|exact D]. }
  change (char "-" ("-"%char :: n ++ s)) with (Some (n ++ s)). cbv beta iota. rewrite Q, Q1, Q2. cbn [app]. rewrite E. auto.
Qed.
Lemma follows_no_more : forall s, follows s -> no_more s.
Proof.
  intros s H. assert (X := follows_bool (fun c => negb (is_digit c) && (negb (Ascii.eqb c ".") && negb (Ascii.eqb c "e" || Ascii.eqb c "E"))) s H eq_refl eq_refl).
  destruct s as [|c s]; [repeat split|]. cbv beta in X. apply andb_true_iff in X. destruct X as [A X]. apply andb_true_iff in X. destruct X as [B C]. apply negb_true_iff in A, B, C. unfold no_more. cbn [stops]. auto.
Qed.
(** ** Names *)
Lemma ident_ok : forall x s, name x -> stops word s -> ident (x ++ s) = Some (x, s).
Proof. intros x s (c & r & -> & L & R) H. cbn [app ident]. rewrite (letter_alpha c L). change (fun c0 : ascii => is_alpha c0 || is_digit c0 || (c0 =? "_")%char) with word. rewrite (span_app word r s (word_ok r R) H). reflexivity. Qed.
Lemma follows_word : forall s, follows s -> stops word s.
Proof. intros s H. assert (X := follows_bool (fun c => negb (word c)) s H eq_refl eq_refl). destruct s as [|c s]; [exact I|]. apply negb_true_iff in X. exact X. Qed.
Lemma blank_word : forall w s, blank w -> stops word s -> stops word (w ++ s).
Proof. intros [|c w] s B H; [exact H|]. unfold blank in B. inversion B as [|? ? X _]; subst. destruct X as [-> | ->]; reflexivity. Qed.
Lemma ident_none : forall s, follows s -> ident (skip s) = None /\ char "(" (skip s) = None.
Proof.
  intros s H. assert (X := skip_first (fun c => negb (is_alpha c) && negb (Ascii.eqb c "(")) s H eq_refl). destruct (skip s) as [|c r]; [auto|]. apply andb_true_iff in X. destruct X as [A B]. apply negb_true_iff in A, B. cbn [ident char]. rewrite A, B. auto.
Qed.
