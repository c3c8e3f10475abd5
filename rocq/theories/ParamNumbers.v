(** A way to compute with numbers, for the examples: decimal integers, where pi is 30. *)
From Coq Require Import List Bool Arith ZArith String Ascii Lia.
From Verif Require Import ParamModel ParamSpec ParamProofs ParamPeg ParamLoad.
Import ListNotations.
Local Open Scope list_scope.

Definition digits_value (s : str) : Z := fold_left (fun a c => if is_digit c then (10 * a + Z.of_nat (code c - 48))%Z else a) s 0%Z.
Definition Zof_text (s : str) : Z := match s with c :: r => if Ascii.eqb c "-" then (- digits_value r)%Z else digits_value s | [] => 0%Z end.
Definition Zbinary (o : op) (a b : Z) : Z := match o with Radd => a + b | Fsub => a - b | Fmul => a * b | Fdiv => a / b | Fpow => a ^ b | Fmax => Z.max a b | Fmin => Z.min a b | _ => 0 end%Z.
Definition Zunary (o : op) (a : Z) : Z := match o with Fneg => - a | Fabs => Z.abs a | _ => a end%Z.
Definition Zto_text (a : Z) : str :=
  if (a =? 100)%Z then lit "inf" else
  match a with
  | Z0 => lit "0"
  | Zpos p => [ascii_of_nat (48 + Pos.to_nat p)]
  | Zneg p => "-"%char :: [ascii_of_nat (48 + Pos.to_nat p)]
  end.
Definition Znumbers : numbers := {|
  value := Z; of_text := Zof_text; to_text := Zto_text; finite := fun a => negb (a =? 100)%Z && negb (a =? - 100)%Z;
  near := fun a b => (Z.abs (a - b) <=? 1)%Z; pi := 30%Z; unary := Zunary; binary := Zbinary |}.
Lemma Zlaws : laws Znumbers.
Proof.
  constructor.
  - intros s N. destruct (number_first s N) as (c & r & -> & D). cbn [of_text unary Znumbers Zunary Zof_text]. rewrite (digit_not c "-"); [reflexivity|cbn; tauto|exact D].
  - intros a b. cbn. ring.
  - intros a. cbn [finite unary Znumbers Zunary]. destruct (Z.eqb_spec (- a) 100), (Z.eqb_spec (- a) (-100)), (Z.eqb_spec a 100), (Z.eqb_spec a (-100)); try reflexivity; lia.
  - reflexivity.
Qed.
Lemma Zone : one_laws Znumbers.
Proof.
  constructor; [intros v|intros v|intros v|repeat split; reflexivity].
  - change (binary Znumbers Fmul (of_text Znumbers (lit "1")) v) with (1 * v)%Z. apply Z.mul_1_l.
  - change (binary Znumbers Fmul v (of_text Znumbers (lit "1"))) with (v * 1)%Z. apply Z.mul_1_r.
  - change (binary Znumbers Fdiv v (of_text Znumbers (lit "1"))) with (v / 1)%Z. apply Z.div_1_r.
Qed.
Lemma Zprintable : forall v, (-10 < v < 10)%Z -> printable Znumbers v.
Proof.
  intros v H. assert (D : In v (map (fun k => Z.of_nat k - 9)%Z (seq 0 19))). { apply in_map_iff. exists (Z.to_nat (v + 9)). split; [lia|]. apply in_seq. lia. }
  cbn in D. repeat (destruct D as [<-|D]; [split; [reflexivity|split; [reflexivity|]]; first [left; apply number_ok; cbn; tauto|right; eexists; split; [reflexivity|split; [apply number_ok; cbn; tauto|reflexivity]]]|]). destruct D.
Qed.
Definition power_tower : written := CInfix Power (CNum (lit "2")) [] [] (CInfix Power (CNum (lit "3")) [] [] (CNum (lit "2"))).
Definition minus_power : written := CNeg [] (CInfix Power (CVar (lit "x")) [] [] (CNum (lit "2"))).
Definition minus_number : written := CNeg [] (CInfix Power (CNum (lit "2")) [] [] (CNum (lit "2"))).
Lemma bad_grammatical : forall c, In c [power_tower; minus_power; minus_number] -> grammatical c.
Proof.
  assert (B0 : blank []) by constructor. assert (N2 : number (lit "2")) by (apply number_ok; cbn; tauto). assert (N3 : number (lit "3")) by (apply number_ok; cbn; tauto). assert (X : name (lit "x")) by (apply letters_name; reflexivity).
  intros c [<-|[<-|[<-|[]]]]; cbn; repeat split; auto; lia.
Qed.
