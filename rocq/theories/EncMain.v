(** * Proofs of the properties C36, C37: encoding circuits for pytket *)
From Coq Require Import List Bool Arith Lia.
From Verif Require Import EncSpec EncModel EncFacts EncInv EncStep EncProofs EncCases.
Import ListNotations.

Lemma C36_partial_pf : forall (Op E V P : Type) (zero one : V) (run : Op -> list V -> list V -> list P -> list V * list V) (prun : Op -> list P -> list P)
    (den : E -> P) (trash : Op -> V -> V) (out_params : Op -> list E -> list E) (oq ob : Op -> nat),
  (forall o q b p, length (fst (run o q b p)) = oq o /\ length (snd (run o q b p)) = ob o) ->
  (forall o es, map den (out_params o es) = prun o (map den es)) ->
  forall (c : circuit Op E) nq nb params, tidy Op E out_params oq ob c -> clean c -> total_p (inputs c) <= length params ->
  exists enc, encode out_params c nq nb params = Some enc /\
    faithful Op E V P zero one run prun den trash c (commands enc) (in_values enc) (out_values enc).
Proof.
  intros Op E V P zero one run prun den trash out_params oq ob RL OD c nq nb params T Cl L.
  destruct (encode_ok Op E V P zero one run prun den trash out_params oq ob RL OD c T nq nb params L) as (enc & A & B). exists enc. split; [exact A|exact (B Cl)].
Qed.

Lemma C36_alloc_refuted_pf : tidy gate unit gparams gq gb c_alloc /\
  exists enc, encode gparams c_alloc 0 0 [] = Some enc /\
    ~ faithful gate unit bool unit false true grun gparams (fun e => e) (fun _ v => v) c_alloc (commands enc) (in_values enc) (out_values enc).
Proof.
  split; [constructor; [solve_scoped|solve_typed|solve_linear|solve_unshared|solve_unmixed|solve_dead]|].
  eexists. split; [vm_compute; reflexivity|]; cbn [commands in_values out_values]. intros [_ F].
  destruct (F [(0, {| vq := [true]; vb := []; vp := [] |})] (fun k i => match k, i with Qb, 0 => true | _, _ => false end)) as (e & M & G).
  - repeat constructor.
  - intros [] [|i] N; try reflexivity. exfalso. apply N. left. reflexivity.
  - vm_compute in M. injection M as <-. inversion G as [|? ? ? ? _ G']; subst. inversion G' as [|? ? ? ? G0 _]; subst. vm_compute in G0. discriminate G0.
Qed.

Lemma C36_const_refuted_pf : tidy gate unit gparams gq gb c_const /\
  exists enc, encode gparams c_const 0 0 [] = Some enc /\
    ~ faithful gate unit bool unit false true grun gparams (fun e => e) (fun _ v => v) c_const (commands enc) (in_values enc) (out_values enc).
Proof.
  split; [constructor; [solve_scoped|solve_typed|solve_linear|solve_unshared|solve_unmixed|solve_dead]|].
  eexists. split; [vm_compute; reflexivity|]; cbn [commands in_values out_values]. intros [_ F].
  destruct (F [(0, {| vq := []; vb := [true]; vp := [] |}); (1, {| vq := []; vb := [true]; vp := [] |})] (fun k i => match k, i with Bt, 0 | Bt, 1 => true | _, _ => false end)) as (e & M & G).
  - repeat constructor.
  - intros [] [|[|i]] N; try reflexivity; exfalso; apply N; [left|right; left]; reflexivity.
  - vm_compute in M. injection M as <-. inversion G as [|? ? ? ? _ G']; subst. inversion G' as [|? ? ? ? G0 _]; subst. vm_compute in G0. discriminate G0.
Qed.

Lemma C36_shared_refuted_pf : scoped c_shared /\ typed gate unit gparams gq gb c_shared /\ linear c_shared /\ unmixed c_shared /\ dead_last c_shared /\ clean c_shared /\
  exists enc, encode gparams c_shared 0 0 [] = Some enc /\
    ~ faithful gate unit bool unit false true grun gparams (fun e => e) (fun _ v => v) c_shared (commands enc) (in_values enc) (out_values enc).
Proof.
  split; [solve_scoped|]. split; [solve_typed|]. split; [solve_linear|]. split; [solve_unmixed|]. split; [solve_dead|]. split; [solve_clean|].
  eexists. split; [vm_compute; reflexivity|]; cbn [commands in_values out_values]. intros [_ F].
  destruct (F [(0, {| vq := []; vb := [true]; vp := [] |}); (1, {| vq := []; vb := [false]; vp := [] |})] (fun k i => match k, i with Bt, 0 => true | _, _ => false end)) as (e & M & G).
  - repeat constructor.
  - intros [] [|[|i]] N; try reflexivity; exfalso; apply N; left; reflexivity.
  - vm_compute in M. injection M as <-. inversion G as [|? ? ? ? _ G']; subst. inversion G' as [|? ? ? ? G0 _]; subst. vm_compute in G0. discriminate G0.
Qed.

Lemma C36_alias_refuted_pf : scoped c_alias /\ typed gate unit gparams gq gb c_alias /\ linear c_alias /\ unmixed c_alias /\ dead_last c_alias /\ clean c_alias /\
  exists enc, encode gparams c_alias 0 0 [] = Some enc /\
    ~ faithful gate unit bool unit false true grun gparams (fun e => e) (fun _ v => v) c_alias (commands enc) (in_values enc) (out_values enc).
Proof.
  split; [solve_scoped|]. split; [solve_typed|]. split; [solve_linear|]. split; [solve_unmixed|]. split; [solve_dead|]. split; [solve_clean|].
  eexists. split; [vm_compute; reflexivity|]; cbn [commands in_values out_values]. intros [_ F].
  destruct (F [(0, {| vq := []; vb := [true]; vp := [] |}); (1, {| vq := [false]; vb := []; vp := [] |})] (fun k i => match k, i with Bt, 0 => true | _, _ => false end)) as (e & M & G).
  - repeat constructor.
  - intros [] [|i] N; try reflexivity; exfalso; apply N; left; reflexivity.
  - vm_compute in M. injection M as <-. inversion G as [|? ? ? ? G0 _]; subst. vm_compute in G0. discriminate G0.
Qed.

Lemma C36_input_refuted_pf : scoped c_input /\ typed gate unit gparams gq gb c_input /\ linear c_input /\ unshared c_input /\ unmixed c_input /\ clean c_input /\
  exists enc, encode gparams c_input 0 0 [] = Some enc /\ in_values enc = [[Reg Bt 0]; [Reg Bt 0]].
Proof.
  split; [solve_scoped|]. split; [solve_typed|]. split; [solve_linear|]. split; [solve_unshared|]. split; [solve_unmixed|]. split; [solve_clean|].
  eexists. split; [vm_compute; reflexivity|reflexivity].
Qed.

Lemma C37_partial_pf : forall (Op E : Type) (out_params : Op -> list E -> list E) (oq ob : Op -> nat) (c : circuit Op E) nq nb params l1 l2,
  tidy Op E out_params oq ob c -> total_p (inputs c) <= length params -> nodes c = l1 ++ l2 ->
  exists st0 ii st, register_inputs c (start nq nb) params (inputs c) = Some (st0, ii) /\ encode_nodes out_params c st0 l1 = Some st /\
    forall k, NoDup (flat_map (fun x => regs_of k (fst (snd x))) (wires st)) /\
      forall i, In i (flat_map (fun x => regs_of k (fst (snd x))) (wires st)) -> i < size st k /\ ~ In i (unused st k).
Proof.
  intros Op E out_params oq ob c nq nb params l1 l2 T L At.
  destruct (inputs_start Op E out_params oq ob c T nq nb params L) as (s0 & ii & A1 & A2 & A3 & A4 & A5 & A6).
  assert (RL : forall (o : Op) (q b p : list unit), length (fst (repeat tt (oq o), repeat tt (ob o))) = oq o /\ length (snd (repeat tt (oq o), repeat tt (ob o))) = ob o) by (intros; simpl; rewrite !repeat_length; auto).
  assert (OD : forall o (es : list E), map (fun e => e) (out_params o es) = out_params o (map (fun e => e) es)) by (intros; rewrite !map_id; reflexivity).
  assert (B0 : bound Op E [] []) by (intros w; simpl; lia).
  destruct (nodes_ok Op E unit E tt tt (fun o _ _ _ => (repeat tt (oq o), repeat tt (ob o))) out_params (fun e => e) (fun _ _ => tt) out_params oq ob (fun o q b _ => RL o q b []) OD c T (nodes c) [] s0 [] eq_refl A2 B0 l1 l2 At) as (s1 & cs & cl & B1 & B2 & _).
  exists s0, ii, s1. split; [exact A1|]. split; [exact B1|]. intros k. split; [eapply wires_NoDup; eauto|].
  intros i I. apply in_flat_map in I. destruct I as ([w [vs n]] & I & J). simpl in J. assert (F := s_live _ _ _ _ _ _ B2 _ _ _ _ _ I J). unfold free in F.
  split; [destruct (le_lt_dec (size s1 k) i); [exfalso; tauto|assumption]|tauto].
Qed.

Lemma C37_mixed_refuted_pf : scoped c_mixed /\ typed gate unit gparams gq gb c_mixed /\ linear c_mixed /\ unshared c_mixed /\ dead_last c_mixed /\ clean c_mixed /\
  exists enc, encode gparams c_mixed 0 0 [] = Some enc /\ out_values enc = [[Reg Qb 0; Reg Qb 0]].
Proof.
  split; [solve_scoped|]. split; [solve_typed|]. split; [solve_linear|]. split; [solve_unshared|]. split; [solve_dead|]. split; [solve_clean|].
  eexists. split; [vm_compute; reflexivity|reflexivity].
Qed.

Lemma C36_lazy_pf : forall (Op E : Type) (out_params : Op -> list E -> list E) (opaque : Op -> bool) (c : circuit Op E) nq nb params,
  (forall n o, In n (nodes c) -> what n = IEmit o -> opaque o = false) ->
  encode_lazy out_params c opaque nq nb params = encode out_params c nq nb params.
Proof.
  intros Op E out_params opaque c nq nb params H.
  assert (G1 : forall f st w, get_wire c f [] st w = match wire_values st w with Some (s, v) => Some ([], s, v) | None => None end).
  { intros [|f] st w; simpl; unfold wire_values; destruct (find_wire (wires st) w) as [[vs n]|]; try reflexivity. }
  assert (G2 : forall f ws st, get_wires c f [] st ws = match input_values st ws with Some (s, v) => Some ([], s, v) | None => None end).
  { intros f. induction ws as [|w ws IH]; intros st; simpl; [reflexivity|]. rewrite G1. destruct (wire_values st w) as [[s v]|]; [|reflexivity]. rewrite IH. destruct (input_values s ws) as [[s' v']|]; reflexivity. }
  assert (G3 : forall f st n, (forall o, what n = IEmit o -> opaque o = false) -> encode_node_lazy out_params c opaque f [] st n = match encode_node out_params c st n with Some s => Some ([], s) | None => None end).
  { intros f st n Hn. unfold encode_node_lazy. destruct (what n) eqn:W; try reflexivity.
    - unfold encode_node. rewrite W. replace (match nout n with | [] | _ => emit_transparent out_params c st o (nin n) (nout n) end) with (emit_transparent out_params c st o (nin n) (nout n)) by (destruct (nout n); reflexivity).
      unfold emit_transparent. rewrite G2. destruct (input_values st (nin n)) as [[s v]|]; [|reflexivity]. destruct (_ && _); reflexivity.
    - rewrite (Hn o eq_refl). unfold encode_node. rewrite W. unfold emit_node. rewrite G2. destruct (input_values st (nin n)) as [[s v]|]; [|reflexivity]. destruct (Nat.eqb _ 0); [|reflexivity].
      destruct (register_outputs c s (regs_of Qb v) (regs_of Bt v) (nout n)) as [[[s' q] b]|]; reflexivity. }
  assert (G4 : forall f l st, (forall n o, In n l -> what n = IEmit o -> opaque o = false) -> encode_nodes_lazy out_params c opaque f [] st l = match encode_nodes out_params c st l with Some s => Some ([], s) | None => None end).
  { intros f. induction l as [|n l IH]; intros st Hl; simpl; [reflexivity|]. rewrite G3 by (intros o; apply Hl; left; reflexivity). destruct (encode_node out_params c st n); [|reflexivity]. apply IH. intros m o I. apply Hl. right. exact I. }
  unfold encode_lazy, encode. destruct (register_inputs c (start nq nb) params (inputs c)) as [[st i]|]; [|reflexivity]. rewrite G4 by exact H. destruct (encode_nodes out_params c st (nodes c)); reflexivity.
Qed.

Lemma C37_opaque_refuted_pf : tidy gate unit gparams gq gb c_opaque /\ clean c_opaque /\
  exists enc, encode_lazy gparams c_opaque gopaque 0 0 [] = Some enc /\ In (COp Cx [0; 0] [] [] [] []) (commands enc) /\
    ~ faithful gate unit bool unit false true grun gparams (fun e => e) (fun _ v => v) c_opaque (commands enc) (in_values enc) (out_values enc).
Proof.
  split; [constructor; [solve_scoped|solve_typed|solve_linear|solve_unshared|solve_unmixed|solve_dead]|]. split; [solve_clean|].
  eexists. split; [vm_compute; reflexivity|]; cbn [commands in_values out_values]. split; [simpl; tauto|]. intros [_ F].
  destruct (F [(0, {| vq := [false]; vb := []; vp := [] |})] (fun k i => false)) as (e & M & G).
  - repeat constructor.
  - reflexivity.
  - vm_compute in M. injection M as <-. inversion G as [|? ? ? ? _ G']; subst. inversion G' as [|? ? ? ? G0 _]; subst. vm_compute in G0. discriminate G0.
Qed.

