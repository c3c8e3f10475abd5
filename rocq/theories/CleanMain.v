(** Proofs of the properties of the two loops that resolve modifiers and clean up, C86 and C87. *)
From Coq Require Import List Bool Arith Lia.
From Verif Require Import CleanModel CleanSpec CleanProofs CleanProofs2 CleanProofs3.
Import ListNotations.

Lemma C86_resolved_partial_pf :
  forall g fresh entries,
    valid g -> used_once g -> grounded g -> (forall n, In n (nodes g) -> n < fresh) -> (forall n, In n entries -> In n (nodes g)) ->
    exists fuel0 g' gone, (forall fuel, fuel0 <= fuel -> run fuel fresh g entries = Some (g', Ok gone)) /\ NoDup gone /\
      (forall n, In n gone <-> modifier g' n = true /\ reach g' entries n) /\
      (forall n, descends g entries n -> modifier g n = true -> In n gone) /\
      (forall n, In n (nodes g) -> modifier g n = false -> In n (nodes g') /\ ~ In n gone /\ outs g' n = outs g n) /\
      (forall m c, descends g entries m -> modifier g m = true -> outs g m = [c] -> modifier g c = false ->
         exists new, In new (nodes g') /\ ~ In new (nodes g) /\ ~ In new gone /\ loads g' new = true /\ outs g' new = [c]).
Proof.
 intros g fresh entries V U G F E. now apply pass_ends. Qed.

Lemma C86_cleaned_pf :
  forall g entries,
    valid g -> idle g entries -> (forall n, In n entries -> In n (nodes g)) ->
    exists fuel0 gone, (forall fuel, fuel0 <= fuel -> clean_up g fuel entries = Ok gone) /\ NoDup gone /\
      forall n, In n gone <-> modifier g n = true /\ reach g entries n.
Proof.
 intros g entries V I E. now apply cleaned. Qed.

Lemma C86_only_pf :
  forall g fuel entries gone,
    clean_up g fuel entries = Ok gone -> forall n, In n gone -> exists m, modifier g m = true /\ reach g entries m /\ after g m n.
Proof.
  intros g fuel entries gone E. apply (clean_owed g entries fuel [] [] entries gone E); [intros x []|intros x J; constructor; exact J].
Qed.

Lemma C86_used_twice_refuted_pf :
  exists g entries fresh g' gone c out, valid g /\ grounded g /\ (forall n, In n (nodes g) -> n < fresh) /\ (forall n, In n entries -> In n (nodes g)) /\
    (forall fuel, 40 <= fuel -> run fuel fresh g entries = Some (g', Ok gone)) /\ g' = g /\
    In c gone /\ modifier g c = false /\ In out gone /\ In out (outs g c) /\ outs g out = [].
Proof.
  pose (g := {| nodes := [0; 1; 2; 3; 4; 5; 6]; kids := fun n => nth n [[1; 2; 3; 4; 5; 6]] [];
    outs := fun n => nth n [[]; [5; 6]; []; [4]; [5; 6]; [2]; [2]] []; ins := fun n => nth n [[]; []; [5; 6]; []; [3]; [4; 1]; [4; 1]] [];
    modifier := fun n => n =? 4; loads := fun n => n =? 3 |}).
  exists g, [0], 7, g, [5; 2; 6; 4], 5, 2.
  split; [constructor|].
  - intros n m _ K. destruct n as [|[|n]]; simpl in K; try contradiction. simpl. lia.
  - intros n m. do 8 (destruct n as [|n]; [do 8 (destruct m as [|m]; [reflexivity|]); reflexivity|]). do 8 (destruct m as [|m]; [reflexivity|]). reflexivity.
  - intros n m. do 8 (destruct n as [|n]; [simpl; lia|]). intros [].
  - exists (fun n => match n with 2 => 3 | 4 => 1 | 5 | 6 => 2 | _ => 0 end). intros n m. do 8 (destruct n as [|n]; [simpl; intros J; repeat (destruct J as [<-|J]; [lia|]); destruct J|]). intros [].
  - intros m _ M. apply Nat.eqb_eq in M. subst m. split; reflexivity.
  - split; [intros m p _ M I; apply Nat.eqb_eq in M; subst m; destruct I as [<-|[]]; right; reflexivity|].
    split; [intros n J; simpl in J; lia|]. split; [intros n [<-|[]]; left; reflexivity|].
    split; [|repeat split; simpl; auto].
    intros fuel L. unfold run. rewrite (resolve_more 40 fuel 7 g [] [0] g); [|reflexivity|exact L]. unfold clean_up. rewrite (clean_more g 40 fuel [] [] [0] (Ok [5; 2; 6; 4])); [reflexivity|reflexivity|discriminate|exact L].
Qed.

Lemma C86_panics_refuted_pf :
  exists g entries fresh g', valid g /\ grounded g /\ (forall n, In n (nodes g) -> n < fresh) /\ (forall n, In n entries -> In n (nodes g)) /\
    forall fuel, 40 <= fuel -> run fuel fresh g entries = Some (g', Panic).
Proof.
  pose (g := {| nodes := [0; 1; 2; 3; 4; 5; 6]; kids := fun n => nth n [[1; 2; 3; 4; 5; 6]] [];
    outs := fun n => nth n [[]; [5; 5; 6; 6]; []; [4]; [5; 6]; [2; 2]; [2; 2]] []; ins := fun n => nth n [[]; []; [5; 5; 6; 6]; []; [3]; [4; 1; 1]; [4; 1; 1]] [];
    modifier := fun n => n =? 4; loads := fun n => n =? 3 |}).
  exists g, [0], 7, g.
  split; [constructor|].
  - intros n m _ K. destruct n as [|[|n]]; simpl in K; try contradiction. simpl. lia.
  - intros n m. do 8 (destruct n as [|n]; [do 8 (destruct m as [|m]; [reflexivity|]); reflexivity|]). do 8 (destruct m as [|m]; [reflexivity|]). reflexivity.
  - intros n m. do 8 (destruct n as [|n]; [simpl; lia|]). intros [].
  - exists (fun n => match n with 2 => 3 | 4 => 1 | 5 | 6 => 2 | _ => 0 end). intros n m. do 8 (destruct n as [|n]; [simpl; intros J; repeat (destruct J as [<-|J]; [lia|]); destruct J|]). intros [].
  - intros m _ M. apply Nat.eqb_eq in M. subst m. split; reflexivity.
  - split; [intros m p _ M I; apply Nat.eqb_eq in M; subst m; destruct I as [<-|[]]; right; reflexivity|].
    split; [intros n J; simpl in J; lia|]. split; [intros n [<-|[]]; left; reflexivity|].
    intros fuel L. unfold run. rewrite (resolve_more 40 fuel 7 g [] [0] g); [|reflexivity|exact L]. unfold clean_up. rewrite (clean_more g 40 fuel [] [] [0] Panic); [reflexivity|reflexivity|discriminate|exact L].
Qed.

Lemma C86_argument_refuted_pf :
  exists g entries fresh g' gone c out, valid g /\ used_once g /\ (forall n, In n (nodes g) -> n < fresh) /\ (forall n, In n entries -> In n (nodes g)) /\
    (forall fuel, 40 <= fuel -> run fuel fresh g entries = Some (g', Ok gone)) /\ g' = g /\
    In c gone /\ modifier g c = false /\ In out gone /\ In out (outs g c) /\ outs g out = [].
Proof.
  pose (g := {| nodes := [0; 1; 2; 3; 4]; kids := fun n => nth n [[1; 2; 3; 4]] [];
    outs := fun n => nth n [[]; [3; 4]; []; [4]; [2]] []; ins := fun n => nth n [[]; []; [4]; [1]; [3; 1]] [];
    modifier := fun n => n =? 3; loads := fun n => false |}).
  exists g, [0], 5, g, [2; 4; 3], 4, 2.
  split; [constructor|].
  - intros n m _ K. destruct n as [|[|n]]; simpl in K; try contradiction. simpl. lia.
  - intros n m. do 6 (destruct n as [|n]; [do 6 (destruct m as [|m]; [reflexivity|]); reflexivity|]). do 6 (destruct m as [|m]; [reflexivity|]). reflexivity.
  - intros n m. do 6 (destruct n as [|n]; [simpl; lia|]). intros [].
  - exists (fun n => match n with 2 => 3 | 3 => 1 | 4 => 2 | _ => 0 end). intros n m. do 6 (destruct n as [|n]; [simpl; intros J; repeat (destruct J as [<-|J]; [lia|]); destruct J|]). intros [].
  - intros m _ M. apply Nat.eqb_eq in M. subst m. split; reflexivity.
  - split; [intros m _ M; apply Nat.eqb_eq in M; subst m; reflexivity|].
    split; [intros n J; simpl in J; lia|]. split; [intros n [<-|[]]; left; reflexivity|].
    split; [|repeat split; simpl; auto].
    intros fuel L. unfold run. rewrite (resolve_more 40 fuel 5 g [] [0] g); [|reflexivity|exact L]. unfold clean_up. rewrite (clean_more g 40 fuel [] [] [0] (Ok [2; 4; 3])); [reflexivity|reflexivity|discriminate|exact L].
Qed.

Lemma C87_ends_pf :
  forall g entries, valid g -> (forall n, In n entries -> In n (nodes g)) -> exists fuel, forall fuel', fuel <= fuel' -> clean_up g fuel' entries <> NoFuel.
Proof.
  intros g entries V E. destruct (clean_ends g V entries E) as (fuel & N). exists fuel. intros fuel' L. unfold clean_up in *. rewrite (clean_more g fuel fuel' [] [] entries _ eq_refl N L). exact N.
Qed.

Lemma C87_time_refuted_pf :
  forall d, exists g entries, valid g /\ used_once g /\ grounded g /\ (forall n, In n entries -> In n (nodes g)) /\ length (nodes g) = 5 * d + 1 /\
    (forall n, modifier g n = false) /\ forall fuel, fuel < 2 ^ d -> clean_up g fuel entries = NoFuel.
Proof.
  intros d. exists (tower d), [0]. split; [apply tower_valid|]. split; [intros m _ M; discriminate M|]. split; [intros m p _ M; discriminate M|].
  split; [intros n [<-|[]]; apply node_at; lia|]. split; [apply seq_length|]. split; [reflexivity|]. intros fuel L. now apply slow_tower.
Qed.

