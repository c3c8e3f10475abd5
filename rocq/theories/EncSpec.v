(** Circuits with named wires, programs on registers, and their meanings. Used to state what the pytket
    encoder should do (properties C36, C37). *)
From Coq Require Import List Bool Arith.
Import ListNotations.

(** Registers hold qubits or bits. *)
Inductive kind : Type := Qb | Bt.
Notation wire := nat (only parsing).
(** How many qubits, bits and parameters a wire carries. *)
Record count : Type := { cq : nat; cb : nat; cp : nat }.
Definition cnt (c : count) (k : kind) : nat := match k with Qb => cq c | Bt => cb c end.

Section Circuit.
Variables Op E : Type.
(** What a node does: [IFree] drops a qubit; [IParam] is a constant parameter; [ITransparent] keeps
    qubits and bits and computes parameters; [IEmit] is any other operation. *)
Inductive inst : Type := IAlloc | IFree | IConst (b : bool) | IParam (e : E) | ITransparent (o : Op) | IEmit (o : Op).
Record node : Type := { what : inst; nin : list wire; nout : list (wire * count) }.
Record circuit : Type := { inputs : list (wire * count); nodes : list node; outputs : list wire }.

Definition defs (c : circuit) : list (wire * count) := inputs c ++ flat_map nout (nodes c).
Definition uses (c : circuit) (w : wire) : nat := count_occ Nat.eq_dec (flat_map nin (nodes c) ++ outputs c) w.
Definition total (k : kind) (l : list (wire * count)) : nat := list_sum (map (fun x => cnt (snd x) k) l).
Definition total_p (l : list (wire * count)) : nat := list_sum (map (fun x => cp (snd x)) l).
End Circuit.
Arguments IAlloc {Op E}. Arguments IFree {Op E}. Arguments IConst {Op E} b. Arguments IParam {Op E} e. Arguments ITransparent {Op E} o. Arguments IEmit {Op E} o.
Arguments what {Op E}. Arguments nin {Op E}. Arguments nout {Op E}. Arguments inputs {Op E}. Arguments nodes {Op E}. Arguments outputs {Op E}.
Arguments defs {Op E}. Arguments uses {Op E}.

Section Meaning.
Variables Op E V P : Type.
(** A new qubit and the bit false are [zero]; the bit true is [one]. [run]: the qubits and bits that
    an operation gives. [prun]: parameters. [den]: the meaning of a parameter expression. *)
Variables (zero one : V) (run : Op -> list V -> list V -> list P -> list V * list V) (prun : Op -> list P -> list P) (den : E -> P).
Notation node := (node Op E).
Notation circuit := (circuit Op E).

(** ** Circuits *)
Record val : Type := { vq : list V; vb : list V; vp : list P }.
Definition env : Type := list (wire * val).
Definition vapp (a b : val) : val := {| vq := vq a ++ vq b; vb := vb a ++ vb b; vp := vp a ++ vp b |}.
Fixpoint look (e : env) (w : wire) : option val := match e with [] => None | (x, v) :: e => if Nat.eqb x w then Some v else look e w end.
Fixpoint gather (e : env) (ws : list wire) : option val :=
  match ws with
  | [] => Some {| vq := []; vb := []; vp := [] |}
  | w :: ws => match look e w, gather e ws with Some a, Some b => Some (vapp a b) | _, _ => None end
  end.
(** The wires get their values in order. *)
Fixpoint deal (outs : list (wire * count)) (qs bs : list V) (ps : list P) : env :=
  match outs with
  | [] => []
  | (w, c) :: outs => (w, {| vq := firstn (cq c) qs; vb := firstn (cb c) bs; vp := firstn (cp c) ps |}) :: deal outs (skipn (cq c) qs) (skipn (cb c) bs) (skipn (cp c) ps)
  end.
Definition node_values (n : node) (v : val) : env :=
  match what n with
  | IAlloc => deal (nout n) [zero] [] []
  | IFree => []
  | IConst b => deal (nout n) [] [if b then one else zero] []
  | IParam e => deal (nout n) [] [] [den e]
  | ITransparent o => deal (nout n) (vq v) (vb v) (prun o (vp v))
  | IEmit o => deal (nout n) (fst (run o (vq v) (vb v) (vp v))) (snd (run o (vq v) (vb v) (vp v))) []
  end.
Fixpoint meaning (ns : list node) (e : env) : option env :=
  match ns with
  | [] => Some e
  | n :: ns => match gather e (nin n) with None => None | Some v => meaning ns (node_values n v ++ e) end
  end.

(** ** Programs: an operation is given its input registers, then those that it only writes. *)
Inductive command : Type :=
  | CSet (i : nat)                                            (* set a bit *)
  | COp (o : Op) (qi qn bi bn : list nat) (ps : list E).
Definition regs : Type := kind -> nat -> V.
Definition kind_eqb (a b : kind) : bool := match a, b with Qb, Qb | Bt, Bt => true | _, _ => false end.
Definition set (r : regs) (k : kind) (i : nat) (v : V) : regs := fun k' j => if kind_eqb k' k && Nat.eqb j i then v else r k' j.
(** Write the registers in order; those that are left over get [rest] of their number. *)
Fixpoint write (k : kind) (rest : nat -> V) (r : regs) (is : list nat) (vs : list V) : regs :=
  match is with
  | [] => r
  | i :: is => match vs with v :: vs => write k rest (set r k i v) is vs | [] => write k rest (set r k i (rest i)) is [] end
  end.
(** A qubit that does not come out of an operation is left in any state, [trash]; a bit that is only
    read does not change. *)
Variable trash : Op -> V -> V.
Definition run_command (r : regs) (c : command) : regs :=
  match c with
  | CSet i => set r Bt i one
  | COp o qi qn bi bn ps =>
      let out := run o (map (r Qb) qi) (map (r Bt) bi) (map den ps) in
      write Bt (fun i => r Bt i) (write Qb (fun i => trash o (r Qb i)) r (qi ++ qn) (fst out)) (bi ++ bn) (snd out)
  end.
Definition run_commands (r : regs) (l : list command) : regs := fold_left run_command l r.

(** What a wire carries: registers and parameters. *)
Inductive value : Type := Reg (k : kind) (i : nat) | Par (e : E).
Definition regs_of (k : kind) (vs : list value) : list nat := flat_map (fun v => match v with Reg k' i => if kind_eqb k' k then [i] else [] | Par _ => [] end) vs.
Definition pars_of (vs : list value) : list E := flat_map (fun v => match v with Reg _ _ => [] | Par e => [e] end) vs.
Definition read (r : regs) (vs : list value) : val := {| vq := map (r Qb) (regs_of Qb vs); vb := map (r Bt) (regs_of Bt vs); vp := map den (pars_of vs) |}.

(** ** When commands do what a circuit does: [ii] and [oo] are what its inputs and outputs carry. The
    inputs have registers of their own; if they hold the inputs, and all others are zero, then after
    the commands the registers of the outputs hold the outputs. *)
Definition faithful (c : circuit) (cs : list command) (ii oo : list (list value)) : Prop :=
  (forall k, NoDup (flat_map (regs_of k) ii)) /\
  forall e0 r0,
    Forall2 (fun x vs => look e0 (fst x) = Some (read r0 vs)) (inputs c) ii ->
    (forall k i, ~ In i (flat_map (regs_of k) ii) -> r0 k i = zero) ->
    exists e, meaning (nodes c) e0 = Some e /\ Forall2 (fun w vs => look e w = Some (read (run_commands r0 cs) vs)) (outputs c) oo.
End Meaning.
Arguments vq {V P}. Arguments vb {V P}. Arguments vp {V P}.
Arguments look {V P}. Arguments gather {V P}. Arguments deal {V P}.
Arguments CSet {Op E}. Arguments COp {Op E}. Arguments Reg {E}. Arguments Par {E}. Arguments regs_of {E}. Arguments pars_of {E}.
Arguments read {E V P}. Arguments set {V}. Arguments write {V}.

(** ** Circuits for which the encoding is right. *)
Section Good.
Variables Op E : Type.
Variable out_params : Op -> list E -> list E.
Variables oq ob : Op -> nat.                                   (* how many qubits and bits come out *)
Notation node := (node Op E).
Notation circuit := (circuit Op E).
Definition arity (o : Op) (k : kind) : nat := match k with Qb => oq o | Bt => ob o end.

Definition count_of (c : circuit) (w : wire) : count := match find (fun x => Nat.eqb (fst x) w) (defs c) with Some x => snd x | None => {| cq := 0; cb := 0; cp := 0 |} end.
Definition ins (c : circuit) (n : node) : list (wire * count) := map (fun w => (w, count_of c w)) (nin n).
(** Wires are defined once and before they are used. *)
Definition scoped (c : circuit) : Prop :=
  NoDup (map fst (defs c)) /\
  (forall l1 n l2 w, nodes c = l1 ++ n :: l2 -> In w (nin n) -> In w (map fst (inputs c ++ flat_map nout l1))) /\
  forall w, In w (outputs c) -> In w (map fst (defs c)).
Definition typed (c : circuit) : Prop :=
  forall n, In n (nodes c) ->
    match what n with
    | IAlloc => nin n = [] /\ exists w, nout n = [(w, {| cq := 1; cb := 0; cp := 0 |})]
    | IFree => nout n = []
    | IConst _ => nin n = [] /\ exists w, nout n = [(w, {| cq := 0; cb := 1; cp := 0 |})]
    | IParam _ => nin n = [] /\ exists w, nout n = [(w, {| cq := 0; cb := 0; cp := 1 |})]
    | ITransparent o => (forall k, total k (nout n) = total k (ins c n)) /\ forall es, length es = total_p (ins c n) -> length (out_params o es) = total_p (nout n)
    | IEmit o => (forall k, total k (nout n) = arity o k) /\ total_p (nout n) = 0
    end.
(** Qubits are used once. *)
Definition linear (c : circuit) : Prop := forall w, In w (map fst (defs c)) -> 0 < cq (count_of c w) -> uses c w = 1.
(** Bits that an operation takes over for its outputs have no other user: the first [total Bt (nout n)]
    bits of an operation, and all of a transparent one. *)
Definition taken (c : circuit) (n : node) (w : wire) : Prop :=
  exists l1 l2, nin n = l1 ++ w :: l2 /\ 0 < cb (count_of c w) /\
    match what n with ITransparent _ => True | IEmit _ => total Bt (map (fun w => (w, count_of c w)) l1) < total Bt (nout n) | _ => False end.
Definition unshared (c : circuit) : Prop := forall n w, In n (nodes c) -> taken c n w -> uses c w = 1.
(** No output wire is made of old and of new registers. *)
Definition unmixed (c : circuit) : Prop :=
  forall n o l1 w x l2 k, In n (nodes c) -> what n = IEmit o -> nout n = l1 ++ (w, x) :: l2 ->
    total k l1 + cnt x k <= total k (ins c n) \/ total k (ins c n) <= total k l1 \/ cnt x k = 0.
(** Only the last output of an operation may be unused, and no input. *)
Definition dead_last (c : circuit) : Prop :=
  (forall w x, In (w, x) (inputs c) -> uses c w > 0) /\
  forall n o l1 w x l2, In n (nodes c) -> what n = IEmit o -> nout n = l1 ++ (w, x) :: l2 -> l2 <> [] -> uses c w > 0.
(** A qubit or bit gets lost. *)
Definition discards (c : circuit) (k : kind) (n : node) : Prop :=
  (exists w x, In (w, x) (nout n) /\ 0 < cnt x k /\ uses c w = 0) \/
  match what n with IEmit _ => total k (nout n) < total k (ins c n) | _ => False end.
Definition needs_clean (k : kind) (n : node) : Prop :=
  match what n, k with IAlloc, Qb => True | IConst false, Bt => True | _, _ => False end.
(** New qubits and false bits are not asked for after some got lost. *)
Definition clean (c : circuit) : Prop :=
  forall k l1 n l2 m, nodes c = l1 ++ n :: l2 -> needs_clean k n -> In m l1 -> ~ discards c k m.
Record tidy (c : circuit) : Prop := {
  g_scoped : scoped c; g_typed : typed c; g_linear : linear c; g_unshared : unshared c; g_unmixed : unmixed c; g_dead : dead_last c }.
End Good.
Arguments count_of {Op E}. Arguments ins {Op E}. Arguments discards {Op E}. Arguments needs_clean {Op E}. Arguments clean {Op E}. Arguments taken {Op E}.
Arguments scoped {Op E}. Arguments linear {Op E}. Arguments unshared {Op E}. Arguments unmixed {Op E}. Arguments dead_last {Op E}.
