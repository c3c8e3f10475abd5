(** Properties of the two loops that resolve modifiers and clean up, C86 and C87. *)
From Coq Require Import List Bool Arith Lia.
From Verif Require Import CleanModel CleanSpec CleanProofs CleanProofs2 CleanProofs3 CleanMain.
Import ListNotations.

(** ** C86. When every modifier is used once and modifies a loaded function, the pass ends without panicking.  It removes
    modifiers only, and all of those inside the entry points; all other nodes keep their links; and every use of a chain of
    modifiers is given a new loaded function. *)
Theorem C86_resolved_partial :
  forall g fresh entries,
    valid g -> used_once g -> grounded g -> (forall n, In n (nodes g) -> n < fresh) -> (forall n, In n entries -> In n (nodes g)) ->
    exists fuel0 g' gone, (forall fuel, fuel0 <= fuel -> run fuel fresh g entries = Some (g', Ok gone)) /\ NoDup gone /\
      (forall n, In n gone <-> modifier g' n = true /\ reach g' entries n) /\
      (forall n, descends g entries n -> modifier g n = true -> In n gone) /\
      (forall n, In n (nodes g) -> modifier g n = false -> In n (nodes g') /\ ~ In n gone /\ outs g' n = outs g n) /\
      (forall m c, descends g entries m -> modifier g m = true -> outs g m = [c] -> modifier g c = false ->
         exists new, In new (nodes g') /\ ~ In new (nodes g) /\ ~ In new gone /\ loads g' new = true /\ outs g' new = [c]).
Proof. exact C86_resolved_partial_pf. Qed.

(** The clean-up alone: when what modifiers give is only used by modifiers, it removes exactly the modifiers it looks at. *)
Theorem C86_cleaned :
  forall g entries,
    valid g -> idle g entries -> (forall n, In n entries -> In n (nodes g)) ->
    exists fuel0 gone, (forall fuel, fuel0 <= fuel -> clean_up g fuel entries = Ok gone) /\ NoDup gone /\
      forall n, In n gone <-> modifier g n = true /\ reach g entries n.
Proof. exact C86_cleaned_pf. Qed.

(** In any graph it only removes what comes after a modifier it looks at. *)
Theorem C86_only :
  forall g fuel entries gone,
    clean_up g fuel entries = Ok gone -> forall n, In n gone -> exists m, modifier g m = true /\ reach g entries m /\ after g m n.
Proof. exact C86_only_pf. Qed.

(** A modifier that is used twice is skipped, and the clean-up then removes its users and the output of the function. *)
Theorem C86_used_twice_refuted :
  exists g entries fresh g' gone c out, valid g /\ grounded g /\ (forall n, In n (nodes g) -> n < fresh) /\ (forall n, In n entries -> In n (nodes g)) /\
    (forall fuel, 40 <= fuel -> run fuel fresh g entries = Some (g', Ok gone)) /\ g' = g /\
    In c gone /\ modifier g c = false /\ In out gone /\ In out (outs g c) /\ outs g out = [].
Proof. exact C86_used_twice_refuted_pf. Qed.

(** When those users have two links to the output, the clean-up panics. *)
Theorem C86_panics_refuted :
  exists g entries fresh g', valid g /\ grounded g /\ (forall n, In n (nodes g) -> n < fresh) /\ (forall n, In n entries -> In n (nodes g)) /\
    forall fuel, 40 <= fuel -> run fuel fresh g entries = Some (g', Panic).
Proof. exact C86_panics_refuted_pf. Qed.

(** A modifier of a function that is an argument is skipped as well, and the call and the output of the function are removed. *)
Theorem C86_argument_refuted :
  exists g entries fresh g' gone c out, valid g /\ used_once g /\ (forall n, In n (nodes g) -> n < fresh) /\ (forall n, In n entries -> In n (nodes g)) /\
    (forall fuel, 40 <= fuel -> run fuel fresh g entries = Some (g', Ok gone)) /\ g' = g /\
    In c gone /\ modifier g c = false /\ In out gone /\ In out (outs g c) /\ outs g out = [].
Proof. exact C86_argument_refuted_pf. Qed.

(** ** C87. The clean-up ends, with a result or a panic, in any graph. *)
Theorem C87_ends :
  forall g entries, valid g -> (forall n, In n entries -> In n (nodes g)) -> exists fuel, forall fuel', fuel <= fuel' -> clean_up g fuel' entries <> NoFuel.
Proof. exact C87_ends_pf. Qed.

(** The time it takes is not bounded by the size of the graph: on programs of functions that each call the next one twice,
    it takes at least 2^d steps on 5d + 1 nodes, although there is nothing to remove. *)
Theorem C87_time_refuted :
  forall d, exists g entries, valid g /\ used_once g /\ grounded g /\ (forall n, In n entries -> In n (nodes g)) /\ length (nodes g) = 5 * d + 1 /\
    (forall n, modifier g n = false) /\ forall fuel, fuel < 2 ^ d -> clean_up g fuel entries = NoFuel.
Proof. exact C87_time_refuted_pf. Qed.

(** ** Instances *)
(** A function that calls controlled dagger of a loaded function. *)
Definition chain_graph : graph := {| nodes := [0; 1; 2; 3; 4; 5; 6]; kids := fun n => nth n [[1; 2; 3; 4; 5; 6]] [];
  outs := fun n => nth n [[]; [6]; []; [4]; [5]; [6]; [2]] []; ins := fun n => nth n [[]; []; [6]; []; [3]; [4]; [5; 1]] [];
  modifier := fun n => (n =? 4) || (n =? 5); loads := fun n => n =? 3 |}.
Example chain_valid : valid chain_graph.
Proof.
  constructor.
  - intros n m _ K. destruct n as [|[|n]]; simpl in K; try contradiction. simpl. lia.
  - intros n m. do 8 (destruct n as [|n]; [do 8 (destruct m as [|m]; [reflexivity|]); reflexivity|]). do 8 (destruct m as [|m]; [reflexivity|]). reflexivity.
  - intros n m. do 8 (destruct n as [|n]; [simpl; lia|]). intros [].
  - exists (fun n => match n with 2 => 4 | 4 => 1 | 5 => 2 | 6 => 3 | _ => 0 end). intros n m. do 8 (destruct n as [|n]; [simpl; intros J; repeat (destruct J as [<-|J]; [lia|]); destruct J|]). intros [].
  - intros m _ M. apply orb_true_iff in M as [M|M]; apply Nat.eqb_eq in M; subst m; split; reflexivity.
Qed.
Example chain_once : used_once chain_graph /\ grounded chain_graph.
Proof.
  split; [intros m _ M|intros m p _ M I]; (apply orb_true_iff in M as [M|M]; apply Nat.eqb_eq in M; subst m); try reflexivity; destruct I as [<-|[]]; [right|left]; reflexivity.
Qed.
Example chain_run : match run 60 7 chain_graph [0] with Some (g, Ok gone) => gone = [5; 4] /\ ins g 6 = [7; 1] /\ outs g 7 = [6] /\ kids g 0 = [1; 2; 3; 4; 5; 7; 6] | _ => False end.
Proof. vm_compute. repeat split. Qed.
Example chain_resolved : exists fuel g' gone, run fuel 7 chain_graph [0] = Some (g', Ok gone) /\ In 4 gone /\ In 5 gone /\ ~ In 6 gone.
Proof.
  destruct (C86_resolved_partial chain_graph 7 [0] chain_valid (proj1 chain_once) (proj2 chain_once)) as (f & g' & gone & R & _ & _ & D & K & _).
  - intros n J. simpl in J. lia.
  - intros n [<-|[]]. left; reflexivity.
  - exists f, g', gone. split; [apply R, le_n|]. split; [apply D; [eapply d_kid; [constructor; left; reflexivity|simpl; auto]|reflexivity]|].
    split; [apply D; [eapply d_kid; [constructor; left; reflexivity|simpl; auto 6]|reflexivity]|]. apply K; [simpl; auto 8|reflexivity].
Qed.
Example tower_time : clean_up (tower 3) 7 [0] = NoFuel /\ exists f, clean_up (tower 3) f [0] = Ok [].
Proof. split; [apply slow_tower; simpl; lia|]. exists 200. vm_compute. reflexivity. Qed.

Print Assumptions C86_resolved_partial.
Print Assumptions C86_cleaned.
Print Assumptions C86_only.
Print Assumptions C86_used_twice_refuted.
Print Assumptions C86_panics_refuted.
Print Assumptions C86_argument_refuted.
Print Assumptions C87_ends.
Print Assumptions C87_time_refuted.
