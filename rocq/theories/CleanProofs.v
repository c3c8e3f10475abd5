(** Proofs about the clean-up after modifiers are resolved. *)
From Coq Require Import List Bool Arith Lia.
From Verif Require Import CleanModel CleanSpec.
Import ListNotations.

Lemma mem_iff : forall n l, mem n l = true <-> In n l.
Proof. intros n l. unfold mem. rewrite existsb_exists. split; [intros (x & A & B); apply Nat.eqb_eq in B; now subst|]. intros J. exists n. split; [exact J|apply Nat.eqb_refl]. Qed.
Lemma mem_false : forall n l, mem n l = false <-> ~ In n l.
Proof. intros n l. rewrite <- mem_iff. destruct (mem n l); split; congruence. Qed.
Lemma present_iff : forall g gone n, present g gone n = true <-> In n (nodes g) /\ ~ In n gone.
Proof. intros g gone n. unfold present. rewrite andb_true_iff, negb_true_iff, mem_iff, mem_false. reflexivity. Qed.
Lemma look_iff : forall g gone f n m, In m (look g gone f n) <-> present g gone n = true /\ In m (f n) /\ ~ In m gone.
Proof.
  intros g gone f n m. unfold look. destruct (present g gone n); [|split; [intros []|intros (X & _); discriminate]].
  rewrite filter_In, negb_true_iff, mem_false. tauto.
Qed.

Section Remaining.
Variable g : graph.
(** Nodes that are left. *)
Definition left_over (gone : list nat) : nat := length (filter (fun n => negb (mem n gone)) (nodes g)).
Lemma left_less : forall gone n, In n (nodes g) -> ~ In n gone -> left_over (n :: gone) < left_over gone.
Proof.
  intros gone n. unfold left_over. intros J N. apply mem_false in N.
  assert (MC : forall y, mem y (n :: gone) = Nat.eqb y n || mem y gone) by reflexivity.
  assert (W : forall l, length (filter (fun m => negb (mem m (n :: gone))) l) <= length (filter (fun m => negb (mem m gone)) l)).
  { induction l as [|y l IH]; [constructor|]. cbn [filter]. rewrite MC. destruct (Nat.eqb y n), (mem y gone); cbn [orb negb length]; lia. }
  revert J. induction (nodes g) as [|x l IH]; intros J; [destruct J|]. cbn [filter]. rewrite MC. specialize (W l). destruct J as [->|J].
  - rewrite Nat.eqb_refl, N. cbn [orb negb length]. lia.
  - specialize (IH J). destruct (Nat.eqb x n), (mem x gone); cbn [orb negb length]; lia.
Qed.
End Remaining.

(** More fuel does not matter. *)
Lemma down_more : forall g f f' gone st r, remove_down g f gone st = r -> r <> NoFuel -> f <= f' -> remove_down g f' gone st = r.
Proof.
  induction f as [|f IH]; intros f' gone st r E N L; destruct st as [|n st]; simpl in E.
  - destruct f'; exact E.
  - congruence.
  - destruct f'; exact E.
  - destruct f' as [|f']; [lia|]. simpl. destruct (present g gone n); [|exact E]. apply IH; auto; lia.
Qed.
Lemma clean_more : forall g f f' gone visited q r, clean g f gone visited q = r -> r <> NoFuel -> f <= f' -> clean g f' gone visited q = r.
Proof.
  induction f as [|f IH]; intros f' gone visited q r E N L; destruct q as [|n q]; simpl in E.
  - destruct f'; exact E.
  - congruence.
  - destruct f'; exact E.
  - destruct f' as [|f']; [lia|]. simpl. destruct (present g gone n && modifier g n).
    + destruct (remove_down g f gone [n]) as [gone2| |] eqn:D.
      * rewrite (down_more g f f' gone [n] (Ok gone2)); [|exact D|discriminate|lia]. apply IH; auto; lia.
      * rewrite (down_more g f f' gone [n] Panic); [exact E|exact D|discriminate|lia].
      * congruence.
    + apply IH; auto; lia.
Qed.

Section Idle.
Variable g : graph.
Hypothesis VG : valid g.
Variable entries : list nat.
Hypothesis ID : idle g entries.

Lemma link_iff : forall n m, In m (outs g n) <-> In n (ins g m).
Proof. intros n m. rewrite (count_occ_In Nat.eq_dec), (count_occ_In Nat.eq_dec (ins g m)), (v_links g VG). reflexivity. Qed.
Lemma single_in : forall m p, In m (nodes g) -> modifier g m = true -> In m (outs g p) -> ins g m = [p].
Proof.
  intros m p J M L. apply link_iff in L. destruct (v_modifier g VG m J M) as (E & _). destruct (ins g m) as [|a [|b l]]; try discriminate. destruct L as [<-|[]]. reflexivity.
Qed.
Lemma out_once : forall p m, In m (nodes g) -> modifier g m = true -> count_occ Nat.eq_dec (outs g p) m <= 1.
Proof.
  intros p m J M. rewrite (v_links g VG). destruct (v_modifier g VG m J M) as (E & _). destruct (ins g m) as [|a [|b l]]; try discriminate. simpl. destruct (Nat.eq_dec a p); lia.
Qed.
Lemma not_self : forall n, ~ In n (outs g n).
Proof. intros n J. destruct (v_acyclic g VG) as (rank & R). specialize (R n n J). lia. Qed.

(** The inner loop: [v] is the first node on the stack. *)
Record inner (v : nat) (gone0 gone st : list nat) : Prop := {
  i_nodup : NoDup st;
  i_stack : forall x, In x st -> present g gone x = true /\ modifier g x = true /\ after g v x /\ reach g entries x;
  i_pred : forall x p, In x st -> x <> v -> In p (ins g x) -> In p gone;
  i_first : In v gone \/ st = [v];
  i_old : forall x, In x gone0 -> In x gone;
  i_new : forall x, In x gone -> ~ In x gone0 -> In x (nodes g) /\ modifier g x = true /\ after g v x /\ (forall y, In y (outs g x) -> In y gone \/ In y st) /\ (x <> v -> forall p, In p (ins g x) -> In p gone);
  i_gone : NoDup gone;
}.
Lemma nodup_filter_rev : forall l (f : nat -> bool), (forall x, In x l -> f x = true -> count_occ Nat.eq_dec l x <= 1) -> NoDup (rev (filter f l)).
Proof.
  intros l f H. apply NoDup_rev. apply (NoDup_count_occ Nat.eq_dec). intros x.
  assert (W : forall l, count_occ Nat.eq_dec (filter f l) x <= count_occ Nat.eq_dec l x).
  { clear. induction l as [|y l IH]; [constructor|]. simpl. destruct (f y); simpl; destruct (Nat.eq_dec y x); lia. }
  destruct (in_dec Nat.eq_dec x (filter f l)) as [J|J]; [|apply (count_occ_not_In Nat.eq_dec) in J; lia].
  apply filter_In in J as (J & F). specialize (W l). specialize (H x J F). lia.
Qed.
Lemma nodup_app : forall (l r : list nat), NoDup l -> NoDup r -> (forall x, In x l -> ~ In x r) -> NoDup (l ++ r).
Proof.
  induction l as [|x l IH]; simpl; intros r A B D; [exact B|]. inversion A; subst. constructor.
  - rewrite in_app_iff. intros [J|J]; [contradiction|]. apply (D x); auto.
  - apply IH; auto.
Qed.
Lemma inner_step : forall v gone0 gone n st, inner v gone0 gone (n :: st) -> inner v gone0 (n :: gone) (rev (output_neighbours g gone n) ++ st).
Proof.
  intros v gone0 gone n st [ND ST PR FI OL NW GN]. destruct (ST n (or_introl eq_refl)) as (PN & MN & AN & RN). pose proof PN as PN2. apply present_iff in PN2 as (JN & GNN).
  assert (OUT : forall x, In x (output_neighbours g gone n) -> In x (outs g n) /\ ~ In x gone /\ In x (nodes g) /\ modifier g x = true /\ ins g x = [n]).
  { intros x J. apply look_iff in J as (_ & J & NG). pose proof (proj2 (v_outs g VG n x J)) as JX. pose proof (ID n x RN MN J) as MX. repeat split; auto. now apply single_in. }
  assert (VX : forall x, In x (output_neighbours g gone n) -> x <> v).
  { intros x J ->. destruct (OUT v J) as (L & NG & _). destruct FI as [F|F]; [contradiction|]. injection F as -> ->. eapply not_self; eauto. }
  constructor.
  - apply nodup_app.
    + unfold output_neighbours, look. rewrite PN. apply nodup_filter_rev. intros x J F. apply negb_true_iff, mem_false in F.
      apply out_once; [apply (v_outs g VG n x J)|apply (ID n x RN MN J)].
    + inversion ND; auto.
    + intros x J K. apply in_rev in J. destruct (OUT x J) as (_ & _ & _ & _ & E). apply GNN. apply (PR x n); [right; exact K|now apply VX|rewrite E; left; reflexivity].
  - intros x J. apply in_app_iff in J as [J|J].
    + apply in_rev in J. destruct (OUT x J) as (A & B & C & D & _). split; [|split; [exact D|split; [eapply a_step; eauto|eapply r_step; eauto]]]. apply present_iff. split; [exact C|]. intros [<-|K]; [eapply not_self; eauto|contradiction].
    + destruct (ST x (or_intror J)) as (A & B & C & R). split; [|split; [|split]; auto]. apply present_iff in A as (A1 & A2). apply present_iff. split; [exact A1|]. intros [<-|K]; [inversion ND; contradiction|contradiction].
  - intros x p J NV P. apply in_app_iff in J as [J|J].
    + apply in_rev in J. destruct (OUT x J) as (_ & _ & _ & _ & E). rewrite E in P. destruct P as [<-|[]]. left; reflexivity.
    + right. apply (PR x p); auto. right; exact J.
  - left. destruct FI as [F|F]; [right; exact F|]. injection F as -> ->. left; reflexivity.
  - intros x J. right. auto.
  - intros x J N0. destruct J as [<-|J].
    + repeat split; auto.
      * intros y Y. destruct (in_dec Nat.eq_dec y gone) as [G|G]; [left; right; exact G|]. right. apply in_app_iff. left. apply -> in_rev. apply look_iff. auto.
      * intros NV p P. right. apply (PR n p); auto. left; reflexivity.
    + destruct (NW x J N0) as (A & B & C & D & E). repeat split; auto.
      * intros y Y. destruct (D y Y) as [G|[<-|G]]; [left; right; exact G|left; left; reflexivity|right; apply in_app_iff; right; exact G].
      * intros NV p P. right. eauto.
  - constructor; auto.
Qed.
Lemma inner_run : forall fuel v gone0 gone st, inner v gone0 gone st -> left_over g gone <= fuel -> exists gone', remove_down g fuel gone st = Ok gone' /\ inner v gone0 gone' [].
Proof.
  induction fuel as [|fuel IH]; intros v gone0 gone st I L.
  - destruct st as [|n st]; [exists gone; split; [reflexivity|exact I]|]. destruct (i_stack _ _ _ _ I n (or_introl eq_refl)) as (P & _). apply present_iff in P as (A & B). pose proof (left_less g gone n A B). lia.
  - destruct st as [|n st]; [exists gone; split; [reflexivity|exact I]|]. destruct (i_stack _ _ _ _ I n (or_introl eq_refl)) as (P & _). simpl. rewrite P. apply present_iff in P as (A & B). pose proof (left_less g gone n A B).
    apply (IH v gone0); [now apply inner_step|lia].
Qed.
Lemma inner_start : forall v gone, reach g entries v -> NoDup gone -> present g gone v = true -> modifier g v = true -> inner v gone gone [v].
Proof.
  intros v gone RV ND P M. constructor; auto.
  - constructor; [intros []|constructor].
  - intros x [<-|[]]. repeat split; auto. constructor.
  - intros x p [<-|[]] N; contradiction.
  - intros x J N; contradiction.
Qed.

(** The outer loop. *)
Definition near (x y : nat) : Prop := In y (kids g x) \/ In y (ins g x) \/ In y (outs g x).
Hypothesis EN : forall n, In n entries -> In n (nodes g).
Record outer (gone visited q : list nat) : Prop := {
  o_entries : forall n, In n entries -> In n visited \/ In n q;
  o_near : forall x y, In x visited \/ In x gone -> near x y -> In y visited \/ In y q \/ In y gone;
  o_mod : forall x, In x visited -> modifier g x = true -> In x gone;
  o_gone : forall x, In x gone -> modifier g x = true /\ reach g entries x;
  o_seen : forall x, In x visited \/ In x q -> In x (nodes g) /\ reach g entries x;
  o_nodup : NoDup gone;
}.
Definition pushed (gone visited : list nat) (n : nat) : list nat :=
  filter (fun m => negb (mem m visited)) (children g gone n) ++ filter (fun m => negb (mem m visited)) (all_neighbours g gone n).
Lemma pushed_iff : forall gone visited n y, In y (pushed gone visited n) <-> present g gone n = true /\ near n y /\ ~ In y gone /\ ~ In y visited.
Proof.
  intros gone visited n y. unfold pushed, near, children, all_neighbours. rewrite in_app_iff, !filter_In, !look_iff, !negb_true_iff, !mem_false, in_app_iff. tauto.
Qed.
Lemma near_nodes : forall x y, In x (nodes g) -> near x y -> In y (nodes g).
Proof. intros x y J [K|[K|K]]; [eapply v_kids; eauto|apply link_iff in K; apply (v_outs g VG y x K)|apply (v_outs g VG x y K)]. Qed.
Lemma near_reach : forall x y, reach g entries x -> near x y -> reach g entries y.
Proof. intros x y R N. eapply r_step; eauto. Qed.
Lemma after_reach : forall v x, reach g entries v -> after g v x -> reach g entries x.
Proof. intros v x R A. induction A; auto. eapply near_reach; eauto. right; right; auto. Qed.

Lemma step_plain : forall gone visited n q, outer gone visited (n :: q) -> present g gone n && modifier g n = false -> outer gone (n :: visited) (q ++ pushed gone visited n).
Proof.
  intros gone visited n q [OE ON OM OG OS OD] P. constructor; auto.
  - intros x J. destruct (OE x J) as [K|[<-|K]]; [left; right; exact K|left; left; reflexivity|right; apply in_app_iff; auto].
  - intros x y J NR.
    assert (W : In y visited \/ In y (n :: q) \/ In y gone -> In y (n :: visited) \/ In y (q ++ pushed gone visited n) \/ In y gone).
    { intros [K|[[<-|K]|K]]; [left; right; exact K|left; left; reflexivity|right; left; apply in_app_iff; auto|right; right; exact K]. }
    assert (C : (In x visited \/ In x gone) \/ (x = n /\ ~ In n gone)).
    { destruct J as [[<-|J]|J]; [|left; auto|left; auto]. destruct (in_dec Nat.eq_dec n gone); [left; auto|right; auto]. }
    destruct C as [C|(-> & NG)]; [apply W; eapply ON; eauto|].
    destruct (in_dec Nat.eq_dec y gone) as [G|G]; [auto|]. destruct (in_dec Nat.eq_dec y visited) as [V|V]; [left; right; exact V|].
    right; left. apply in_app_iff. right. apply pushed_iff. repeat split; auto. apply present_iff. split; [apply (OS n); right; left; reflexivity|exact NG].
  - intros x [<-|J] M; [|auto]. destruct (in_dec Nat.eq_dec n gone) as [G|G]; [exact G|]. rewrite M, andb_true_r in P. assert (present g gone n = true) by (apply present_iff; split; [apply (OS n); right; left; reflexivity|exact G]). congruence.
  - intros x J. destruct J as [[<-|J]|J].
    + apply OS. right; left; reflexivity.
    + apply OS. auto.
    + apply in_app_iff in J as [J|J]; [apply OS; right; right; exact J|]. apply pushed_iff in J as (A & B & _). destruct (OS n (or_intror (or_introl eq_refl))) as (C & D). split; [eapply near_nodes; eauto|eapply near_reach; eauto].
Qed.
Lemma step_mod : forall gone visited n q gone', outer gone visited (n :: q) -> present g gone n = true -> modifier g n = true -> inner n gone gone' [] -> outer gone' (n :: visited) (q ++ pushed gone visited n).
Proof.
  intros gone visited n q gone' [OE ON OM OG OS OD] P M [_ _ _ FI OL NW GN]. destruct (OS n (or_intror (or_introl eq_refl))) as (JN & RN).
  assert (VN : In n gone') by (destruct FI as [F|F]; [exact F|discriminate]). constructor; auto.
  - intros x J. destruct (OE x J) as [K|[<-|K]]; [left; right; exact K|left; left; reflexivity|right; apply in_app_iff; auto].
  - intros x y J NR.
    assert (W : In y visited \/ In y (n :: q) \/ In y gone -> In y (n :: visited) \/ In y (q ++ pushed gone visited n) \/ In y gone').
    { intros [K|[[<-|K]|K]]; [left; right; exact K|left; left; reflexivity|right; left; apply in_app_iff; auto|right; right; auto]. }
    assert (C : (In x visited \/ In x gone) \/ x = n \/ (In x gone' /\ ~ In x gone /\ x <> n)).
    { destruct J as [[<-|J]|J]; auto. destruct (in_dec Nat.eq_dec x gone); auto. destruct (Nat.eq_dec x n); auto. }
    destruct C as [C|[->|(G & NG & NN)]]; [apply W; eapply ON; eauto| |].
    + destruct (in_dec Nat.eq_dec y gone) as [G|G]; [right; right; auto|]. destruct (in_dec Nat.eq_dec y visited) as [V|V]; [left; right; exact V|].
      right; left. apply in_app_iff. right. apply pushed_iff. auto.
    + destruct (NW x G NG) as (A & B & C & D & E). right; right. destruct NR as [K|[K|K]].
      * rewrite (proj2 (v_modifier g VG x A B)) in K. destruct K.
      * apply (E NN y K).
      * destruct (D y K) as [F|[]]. exact F.
  - intros x [<-|J] MX; auto.
  - intros x J. destruct (in_dec Nat.eq_dec x gone) as [G|G]; [auto|]. destruct (NW x J G) as (A & B & C & _). split; [exact B|eapply after_reach; eauto].
  - intros x J. destruct J as [[<-|J]|J].
    + auto.
    + apply OS. auto.
    + apply in_app_iff in J as [J|J]; [apply OS; right; right; exact J|]. apply pushed_iff in J as (A & B & _). split; [eapply near_nodes; eauto|eapply near_reach; eauto].
Qed.

(** Termination. *)
Fixpoint first_new (visited q : list nat) : nat := match q with [] => 0 | n :: q => if mem n visited then S (first_new visited q) else 0 end.
Lemma first_new_app : forall visited q r, (exists x, In x q /\ ~ In x visited) -> first_new visited (q ++ r) = first_new visited q.
Proof.
  induction q as [|n q IH]; intros r (x & J & N); [destruct J|]. simpl. destruct (mem n visited) eqn:E; [|reflexivity]. f_equal. apply IH. apply mem_iff in E. destruct J as [<-|J]; [contradiction|]. eauto.
Qed.
Lemma first_new_ext : forall v w q, (forall x, In x v <-> In x w) -> first_new v q = first_new w q.
Proof.
  intros v w q H. induction q as [|n q IH]; simpl; [reflexivity|]. rewrite IH. assert (E : mem n v = mem n w) by (apply eq_true_iff_eq; rewrite !mem_iff; apply H). rewrite E. reflexivity.
Qed.
Lemma left_ext : forall v w, (forall x, In x v <-> In x w) -> left_over g v = left_over g w.
Proof.
  intros v w H. unfold left_over. f_equal. apply filter_ext. intros n. f_equal. apply eq_true_iff_eq. rewrite !mem_iff. apply H.
Qed.
Lemma terminates : forall u k gone visited q, outer gone visited q -> left_over g visited <= u -> first_new visited q <= k ->
  exists fuel gone', clean g fuel gone visited q = Ok gone' /\ exists visited', outer gone' visited' [].
Proof.
  induction u as [|u IHu]; intros k.
  all: induction k as [|k IHk]; intros gone visited q O U K.
  all: (destruct q as [|n q]; [exists 0, gone; split; [reflexivity|exists visited; exact O]|]).
  all: assert (STEP : exists gone2, outer gone2 (n :: visited) (q ++ pushed gone visited n) /\
         forall f r, clean g f gone2 (n :: visited) (q ++ pushed gone visited n) = Ok r -> exists f', clean g f' gone visited (n :: q) = Ok r).
  1,3,5,7: (destruct (present g gone n && modifier g n) eqn:PM;
    [ apply andb_true_iff in PM as (P & M);
      destruct (inner_run (left_over g gone) n gone gone [n] (inner_start n gone (proj2 (o_seen _ _ _ O n (or_intror (or_introl eq_refl)))) (o_nodup _ _ _ O) P M) (le_n _)) as (gone2 & E & I);
      exists gone2; split; [now apply step_mod|];
      intros f r C; exists (S (f + left_over g gone)); cbn [clean]; rewrite P, M; cbn [andb];
      rewrite (down_more g (left_over g gone) (f + left_over g gone) gone [n] (Ok gone2)); [|exact E|discriminate|lia];
      apply (clean_more g f); [exact C|discriminate|lia]
    | exists gone; split; [now apply step_plain|];
      intros f r C; exists (S f); cbn [clean]; rewrite PM; exact C ]).
  all: destruct STEP as (gone2 & O2 & RUN).
  all: pose proof (proj1 (o_seen _ _ _ O n (or_intror (or_introl eq_refl)))) as JN.
  all: cbn [first_new] in K; destruct (mem n visited) eqn:V; [|apply mem_false in V; pose proof (left_less g visited n JN V)]; try lia.
  all: try (destruct (IHu (first_new (n :: visited) (q ++ pushed gone visited n)) gone2 (n :: visited) (q ++ pushed gone visited n) O2) as (f & r & C & D); [lia|lia|];
            destruct (RUN f r C) as (f' & C'); exists f', r; split; assumption).
  all: apply mem_iff in V; assert (EQ : forall x, In x (n :: visited) <-> In x visited) by (intros x; simpl; split; [intros [<-|J]; auto|auto]).
  all: assert (FN : first_new (n :: visited) (q ++ pushed gone visited n) <= k).
  1,3: (rewrite (first_new_ext _ visited _ EQ); destruct (existsb (fun x => negb (mem x visited)) q) eqn:EX;
    [ apply existsb_exists in EX as (x & J & NX); apply negb_true_iff, mem_false in NX; rewrite first_new_app by eauto; lia
    | assert (PE : pushed gone visited n = []);
      [ destruct (pushed gone visited n) as [|y l] eqn:PY; [reflexivity|]; exfalso;
        assert (J : In y (pushed gone visited n)) by (rewrite PY; left; reflexivity);
        apply pushed_iff in J as (P & NR & NG & NV);
        destruct (o_near _ _ _ O n y (or_introl V) NR) as [X|[[<-|X]|X]]; try contradiction;
        apply mem_false in NV; assert (existsb (fun x => negb (mem x visited)) q = true) by (apply existsb_exists; exists y; split; [exact X|now rewrite NV]); congruence
      | rewrite PE, app_nil_r; lia ] ]).
  all: destruct (IHk gone2 (n :: visited) (q ++ pushed gone visited n) O2) as (f & r & C & D); [rewrite (left_ext _ visited EQ); exact U|exact FN|].
  all: destruct (RUN f r C) as (f' & C'); exists f', r; split; assumption.
Qed.
Lemma outer_start : outer [] [] entries.
Proof.
  constructor.
  - auto.
  - intros x y [[]|[]].
  - intros x [].
  - intros x [].
  - intros x [[]|J]. split; [auto|constructor; exact J].
  - constructor.
Qed.
Lemma outer_end : forall gone visited, outer gone visited [] -> forall n, In n gone <-> modifier g n = true /\ reach g entries n.
Proof.
  intros gone visited [OE ON OM OG OS OD] n. split; [apply OG|]. intros (M & R).
  assert (C : In n visited \/ In n gone).
  { clear M. induction R as [n J|m n R IH NR].
    - destruct (OE n J) as [K|[]]. auto.
    - destruct (ON m n IH NR) as [K|[[]|K]]; auto. }
  destruct C as [C|C]; auto.
Qed.
Lemma cleaned : exists fuel0 gone, (forall fuel, fuel0 <= fuel -> clean_up g fuel entries = Ok gone) /\ NoDup gone /\ forall n, In n gone <-> modifier g n = true /\ reach g entries n.
Proof.
  destruct (terminates (left_over g []) (first_new [] entries) [] [] entries outer_start (le_n _) (le_n _)) as (f & gone & C & visited & O).
  exists f, gone. split; [|split; [apply (o_nodup _ _ _ O)|eapply outer_end; eauto]]. intros fuel L. eapply clean_more; [exact C|discriminate|exact L].
Qed.
End Idle.
