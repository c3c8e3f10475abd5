(** What the operations of [LlvmModel] mean, independently of the instructions: a machine with
    typed primitives, values of wires, a meaning for every operation, and the types. *)
From Coq Require Import List Arith Bool ZArith String Permutation.
From Verif Require Import GlobModel GlobSpec LlvmModel.
Import ListNotations.

(** ** The machine *)
(** One primitive for each thing that the device or the runtime can do. *)
Record machine (D : Type) := {
  m_rz : Z -> flt -> D -> D;
  m_rzz : Z -> Z -> flt -> D -> D;
  m_rxy : Z -> flt -> flt -> D -> D;
  m_alloc : D -> D * option Z;
  m_free : Z -> D -> D;
  m_reset : Z -> D -> D;
  m_measure : Z -> D -> D * bool;
  m_lazy : Z -> D -> D * Z;
  m_leaked : Z -> D -> D * Z;
  m_inc : Z -> D -> D;
  m_dec : Z -> D -> D;
  m_read_bool : Z -> D -> D * bool;
  m_read_uint : Z -> D -> D * Z;
  m_rint : D -> D * Z;
  m_rfloat : D -> D * flt;
  m_rbounded : Z -> D -> D * Z;
  m_advance : Z -> D -> D;
  m_seed : Z -> D -> D;
  m_shot : D -> D * Z;
  m_print : rkind -> bytes -> value -> D -> D;
  m_panic : D -> D }.
Arguments m_rz {D}. Arguments m_rzz {D}. Arguments m_rxy {D}. Arguments m_alloc {D}.
Arguments m_free {D}. Arguments m_reset {D}. Arguments m_measure {D}. Arguments m_lazy {D}.
Arguments m_leaked {D}. Arguments m_inc {D}. Arguments m_dec {D}. Arguments m_read_bool {D}.
Arguments m_read_uint {D}. Arguments m_rint {D}. Arguments m_rfloat {D}. Arguments m_rbounded {D}.
Arguments m_advance {D}. Arguments m_seed {D}. Arguments m_shot {D}. Arguments m_print {D}.
Arguments m_panic {D}.

(** How the functions of the runtime call the primitives: handles are numbers, the handle
    2^64 - 1 says that there is no qubit, and a string comes with its length and is preceded by
    one byte. *)
Definition abi {D} (M : machine D) (f : rfun) (vs : list value) (d : D) : option (D * value) :=
  match f, vs with
  | CRz, [VInt q; VFlt a] => Some (m_rz M q a d, VCtx)
  | CRzz, [VInt p; VInt q; VFlt a] => Some (m_rzz M p q a d, VCtx)
  | CRxy, [VInt q; VFlt a; VFlt b] => Some (m_rxy M q a b d, VCtx)
  | CQAlloc, [] =>
      let (d, o) := m_alloc M d in Some (d, VInt (match o with Some q => q | None => max_qb end))
  | CQFree, [VInt q] => Some (m_free M q d, VCtx)
  | CReset, [VInt q] => Some (m_reset M q d, VCtx)
  | CMeasure, [VInt q] => let (d, b) := m_measure M q d in Some (d, VBit b)
  | CLazyMeasure, [VInt q] => let (d, h) := m_lazy M q d in Some (d, VInt h)
  | CLazyMeasureLeaked, [VInt q] => let (d, h) := m_leaked M q d in Some (d, VInt h)
  | CInc, [VInt h] => Some (m_inc M h d, VCtx)
  | CDec, [VInt h] => Some (m_dec M h d, VCtx)
  | CReadBool, [VInt h] => let (d, b) := m_read_bool M h d in Some (d, VBit b)
  | CReadUint, [VInt h] => let (d, z) := m_read_uint M h d in Some (d, VInt z)
  | CRandomInt, [] => let (d, z) := m_rint M d in Some (d, VInt z)
  | CRandomFloat, [] => let (d, z) := m_rfloat M d in Some (d, VFlt z)
  | CRandomRng, [VInt b] => let (d, z) := m_rbounded M b d in Some (d, VInt z)
  | CRandomAdvance, [VInt b] => Some (m_advance M b d, VCtx)
  | CRandomSeed, [VInt b] => Some (m_seed M b d, VCtx)
  | CShot, [] => let (d, z) := m_shot M d in Some (d, VInt z)
  | CPrint k, [VStr (_ :: s); VInt n; v] => Some (m_print M k (firstn (Z.to_nat n) s) v d, VCtx)
  | CPanic, [] => Some (m_panic M d, VCtx)
  | _, _ => None
  end.

(** A handle that was allocated is not the one which says that there is none. *)
Definition no_max {D} (M : machine D) : Prop :=
  forall d d' q, m_alloc M d = (d', Some q) -> q <> max_qb.

(** ** Values and types of wires *)
Inductive wval :=
| WQubit (q : Z) | WFut (t : fty) (h : Z) | WBool (b : bool) | WOpaque (b : bool)
| WRot (f : flt) | WFloat (f : flt) | WInt (z : Z)
| WOptQ (o : option Z) | WOptR (o : option flt) | WOptC (b : bool) | WCtx.
Inductive wty :=
| TQubit | TFut (t : fty) | TBool | TOpaque | TRot | TFloat | TInt | TOptQ | TOptR | TOptC | TCtx.

Definition ty_of (v : wval) : wty :=
  match v with
  | WQubit _ => TQubit | WFut t _ => TFut t | WBool _ => TBool | WOpaque _ => TOpaque
  | WRot _ => TRot | WFloat _ => TFloat | WInt _ => TInt
  | WOptQ _ => TOptQ | WOptR _ => TOptR | WOptC _ => TOptC | WCtx => TCtx
  end.

(** How a value is represented in LLVM. *)
Definition rep (v : wval) : value :=
  match v with
  | WQubit q => VInt q | WFut _ h => VInt h | WBool b => VBool b | WOpaque b => VBit b
  | WRot f => VFlt f | WFloat f => VFlt f | WInt z => VInt z
  | WOptQ o => VOptQ o | WOptR o => VOptR o | WOptC b => VOptC b | WCtx => VCtx
  end.

(** The type of a result that is printed; arrays are not modelled. *)
Definition print_ty (k : rkind) : option wty :=
  match k with
  | KBool => Some TBool | KInt | KUInt => Some TInt | KF64 => Some TFloat | _ => None
  end.

(** Signatures of the operations. The barrier has any number of qubits. *)
Inductive sig : op -> list wty -> list wty -> Prop :=
| sig_rz : sig QRz [TQubit; TFloat] [TQubit]
| sig_zz : sig QZZPhase [TQubit; TQubit; TFloat] [TQubit; TQubit]
| sig_px : sig QPhasedX [TQubit; TFloat; TFloat] [TQubit]
| sig_m : sig QMeasure [TQubit] [TBool]
| sig_mr : sig QMeasureReset [TQubit] [TQubit; TBool]
| sig_lm : sig QLazyMeasure [TQubit] [TFut FtBool]
| sig_ll : sig QLazyMeasureLeaked [TQubit] [TFut FtUint]
| sig_lr : sig QLazyMeasureReset [TQubit] [TQubit; TFut FtBool]
| sig_r : sig QReset [TQubit] [TQubit]
| sig_qa : sig QTryQAlloc [] [TOptQ]
| sig_qf : sig QQFree [TQubit] []
| sig_rb : forall n, sig QBarrier (repeat TQubit n) (repeat TQubit n)
| sig_fd : forall t, sig (FDup t) [TFut t] [TFut t; TFut t]
| sig_ff : forall t, sig (FFree t) [TFut t] []
| sig_fb : sig (FRead FtBool) [TFut FtBool] [TBool]
| sig_fu : sig (FRead FtUint) [TFut FtUint] [TInt]
| sig_ri : sig RInt [TCtx] [TInt; TCtx]
| sig_rf : sig RFloat [TCtx] [TFloat; TCtx]
| sig_rbd : sig RBounded [TCtx; TInt] [TInt; TCtx]
| sig_ra : sig RAdvance [TCtx; TInt] [TCtx]
| sig_rn : sig RNew [TInt] [TOptC]
| sig_rd : sig RDelete [TCtx] []
| sig_br : sig BRead [TOpaque] [TBool]
| sig_bm : sig BMake [TBool] [TOpaque]
| sig_bn : sig BNot [TOpaque] [TOpaque]
| sig_bb : forall o, In o [BAnd; BOr; BXor; BEq] -> sig o [TOpaque; TOpaque] [TOpaque]
| sig_ta : sig TAdd [TRot; TRot] [TRot]
| sig_tf : sig TFrom [TFloat] [TOptR]
| sig_tu : sig TFromUnchecked [TFloat] [TRot]
| sig_tt : sig TTo [TRot] [TFloat]
| sig_gs : sig GetShot [] [TInt]
| sig_rs : forall k tag t, print_ty k = Some t -> sig (Res k tag) [t] []
| sig_uq : sig UnwrapQ [TOptQ] [TQubit].

(** ** Meaning of the operations *)
Definition finite (f : flt) : bool := match f with FFin _ => true | _ => false end.

(** The value which is printed for a wire. *)
Definition printed (v : wval) : option (wty * value) :=
  match v with
  | WBool b => Some (TBool, VBit b)
  | WInt z => Some (TInt, VInt z)
  | WFloat f => Some (TFloat, VFlt f)
  | _ => None
  end.

(** The run goes on with the values of the outputs, or panics. *)
Inductive res (X D : Type) := Go (x : X) (d : D) | Panicked (d : D).
Arguments Go {X D}. Arguments Panicked {X D}.

Section Meaning.
Variable D : Type.
Variable M : machine D.
Variable fadd : flt -> flt -> flt.

(** extension/qsystem.rs, futures.rs, random.rs, utils.rs, result.rs, tket/src/extension/
    {bool,rotation}.rs: the descriptions of the operations. A qubit that is measured without
    reset is given back. A new context always succeeds (the description says otherwise, see
    [C78_new_context_refuted]). *)
Definition mean (o : op) (vs : list wval) (d : D) : option (res (list wval) D) :=
  match o, vs with
  | QRz, [WQubit q; WFloat a] => Some (Go [WQubit q] (m_rz M q a d))
  | QZZPhase, [WQubit p; WQubit q; WFloat a] => Some (Go [WQubit p; WQubit q] (m_rzz M p q a d))
  | QPhasedX, [WQubit q; WFloat a; WFloat b] => Some (Go [WQubit q] (m_rxy M q a b d))
  | QMeasure, [WQubit q] => let (d, b) := m_measure M q d in Some (Go [WBool b] (m_free M q d))
  | QMeasureReset, [WQubit q] =>
      let (d, b) := m_measure M q d in Some (Go [WQubit q; WBool b] (m_reset M q d))
  | QLazyMeasure, [WQubit q] =>
      let (d, h) := m_lazy M q d in Some (Go [WFut FtBool h] (m_free M q d))
  | QLazyMeasureLeaked, [WQubit q] =>
      let (d, h) := m_leaked M q d in Some (Go [WFut FtUint h] (m_free M q d))
  | QLazyMeasureReset, [WQubit q] =>
      let (d, h) := m_lazy M q d in Some (Go [WQubit q; WFut FtBool h] (m_reset M q d))
  | QReset, [WQubit q] => Some (Go [WQubit q] (m_reset M q d))
  | QTryQAlloc, [] =>
      match m_alloc M d with
      | (d, Some q) => Some (Go [WOptQ (Some q)] (m_reset M q d))
      | (d, None) => Some (Go [WOptQ None] d)
      end
  | QQFree, [WQubit q] => Some (Go [] (m_free M q d))
  | QBarrier, _ => Some (Go vs d)
  | FDup t, [WFut u h] => Some (Go [WFut u h; WFut u h] (m_inc M h d))
  | FFree _, [WFut _ h] => Some (Go [] (m_dec M h d))
  | FRead FtBool, [WFut FtBool h] =>
      let (d, b) := m_read_bool M h d in Some (Go [WBool b] (m_dec M h d))
  | FRead FtUint, [WFut FtUint h] =>
      let (d, z) := m_read_uint M h d in Some (Go [WInt z] (m_dec M h d))
  | RInt, [WCtx] => let (d, z) := m_rint M d in Some (Go [WInt z; WCtx] d)
  | RFloat, [WCtx] => let (d, z) := m_rfloat M d in Some (Go [WFloat z; WCtx] d)
  | RBounded, [WCtx; WInt b] => let (d, z) := m_rbounded M b d in Some (Go [WInt z; WCtx] d)
  | RAdvance, [WCtx; WInt n] => Some (Go [WCtx] (m_advance M n d))
  | RNew, [WInt s] => Some (Go [WOptC true] (m_seed M s d))
  | RDelete, [WCtx] => Some (Go [] d)
  | BRead, [WOpaque b] => Some (Go [WBool b] d)
  | BMake, [WBool b] => Some (Go [WOpaque b] d)
  | BNot, [WOpaque b] => Some (Go [WOpaque (negb b)] d)
  | BAnd, [WOpaque a; WOpaque b] => Some (Go [WOpaque (if a then b else false)] d)
  | BOr, [WOpaque a; WOpaque b] => Some (Go [WOpaque (if a then true else b)] d)
  | BXor, [WOpaque a; WOpaque b] => Some (Go [WOpaque (if a then negb b else b)] d)
  | BEq, [WOpaque a; WOpaque b] => Some (Go [WOpaque (if a then b else negb b)] d)
  | TAdd, [WRot a; WRot b] => Some (Go [WRot (fadd a b)] d)
  | TFrom, [WFloat f] => Some (Go [WOptR (if finite f then Some f else None)] d)
  | TFromUnchecked, [WFloat f] => Some (if finite f then Go [WRot f] d else Panicked (m_panic M d))
  | TTo, [WRot f] => Some (Go [WFloat f] d)
  | GetShot, [] => let (d, z) := m_shot M d in Some (Go [WInt z] d)
  | Res k tag, [v] =>
      match printed v, print_ty k with
      | Some (TBool, x), Some TBool | Some (TInt, x), Some TInt | Some (TFloat, x), Some TFloat =>
          Some (Go [] (m_print M k (tag_text (Some k) tag) x d))
      | _, _ => None
      end
  | UnwrapQ, [WOptQ (Some q)] => Some (Go [WQubit q] d)
  | UnwrapQ, [WOptQ None] => Some (Panicked (m_panic M d))
  | _, _ => None
  end.

(** A program runs its operations one after the other. *)
Definition venv := list (nat * wval).
Fixpoint run (p : prog) (env : venv) (d : D) : option (res venv D) :=
  match p with
  | [] => Some (Go env d)
  | (o, ins, outs) :: p =>
      match lookups env ins with
      | None => None
      | Some vs =>
          match mean o vs d with
          | None => None
          | Some (Panicked d) => Some (Panicked d)
          | Some (Go ws d) =>
              match bind outs ws env with Some env => run p env d | None => None end
          end
      end
  end.
End Meaning.

(** ** Typed programs *)
Definition tenv := list (nat * wty).
(** Every operation has the types of its wires, and every tag is one that fits. *)
Fixpoint typed (p : prog) (G : tenv) : Prop :=
  match p with
  | [] => True
  | (o, ins, outs) :: p =>
      exists ts us G',
        lookups G ins = Some ts /\ sig o ts us /\ bind outs us G = Some G' /\ typed p G' /\
        match o with
        | Res k tag => tag <> [] /\ List.length (tag_text (Some k) tag) < 256
        | _ => True
        end
  end.
(** The parameters of a function: wire [i] is register [i] and holds the [i]-th value. *)
Definition params {X} (xs : list X) : list (nat * X) := combine (seq 0 (List.length xs)) xs.
Definition param_regs (k : nat) : list (nat * operand) := params (map OReg (seq 0 k)).

(** ** Linear programs *)
(** Types of values that must be used exactly once. *)
Definition linear (t : wty) : bool :=
  match t with TQubit | TFut _ | TOptQ => true | _ => false end.
(** The wires with linear types that are still to be used: an operation uses each of its linear
    inputs once, and its outputs are new wires. *)
Definition drop (ins : list nat) (G : tenv) : tenv :=
  filter (fun x => negb (linear (snd x) && existsb (Nat.eqb (fst x)) ins)) G.
Definition lin_ins (ins : list nat) (G : tenv) : list nat :=
  filter (fun w => match lookup G w with Some t => linear t | None => false end) ins.
(** [linear_prog p G G']: from the wires [G], the program leaves the wires [G']. *)
Fixpoint linear_prog (p : prog) (G G' : tenv) : Prop :=
  match p with
  | [] => G' = G
  | (o, ins, outs) :: p =>
      exists ts us,
        lookups G ins = Some ts /\ sig o ts us /\ NoDup (lin_ins ins G) /\
        List.length outs = List.length us /\ NoDup outs /\
        (forall w, In w outs -> lookup G w = None) /\
        linear_prog p (combine outs us ++ drop ins G) G' /\
        match o with
        | Res k tag => tag <> [] /\ List.length (tag_text (Some k) tag) < 256
        | _ => True
        end
  end.
(** Wires with linear types. *)
Definition live (G : tenv) : list nat := map fst (filter (fun x => linear (snd x)) G).

(** ** Bookkeeping of handles *)
(** The qubits that are allocated, the references to futures (one for each), whether something
    was done with a handle that is not in use, and whether the runtime gave the handle of a
    qubit again while it was in use. *)
Record ledger := { l_qubits : list Z; l_refs : list Z; l_bad : bool; l_odd : bool }.

Definition has (z : Z) (l : list Z) : bool := existsb (Z.eqb z) l.
Fixpoint take (z : Z) (l : list Z) : list Z :=
  match l with [] => [] | x :: l => if Z.eqb x z then l else x :: take z l end.

Definition check (b : bool) (L : ledger) : ledger :=
  {| l_qubits := l_qubits L; l_refs := l_refs L; l_bad := l_bad L || negb b; l_odd := l_odd L |}.
Definition use_qubit (q : Z) (L : ledger) : ledger := check (has q (l_qubits L)) L.
Definition use_ref (h : Z) (L : ledger) : ledger := check (has h (l_refs L)) L.
Definition new_qubit (q : Z) (L : ledger) : ledger :=
  {| l_qubits := q :: l_qubits L; l_refs := l_refs L; l_bad := l_bad L;
     l_odd := l_odd L || has q (l_qubits L) |}.
Definition del_qubit (q : Z) (L : ledger) : ledger :=
  let L := use_qubit q L in
  {| l_qubits := take q (l_qubits L); l_refs := l_refs L; l_bad := l_bad L; l_odd := l_odd L |}.
Definition new_future (h : Z) (L : ledger) : ledger :=
  {| l_qubits := l_qubits L; l_refs := h :: l_refs L; l_bad := l_bad L; l_odd := l_odd L |}.
Definition inc_ref (h : Z) (L : ledger) : ledger :=
  let L := use_ref h L in
  {| l_qubits := l_qubits L; l_refs := h :: l_refs L; l_bad := l_bad L; l_odd := l_odd L |}.
Definition dec_ref (h : Z) (L : ledger) : ledger :=
  let L := use_ref h L in
  {| l_qubits := l_qubits L; l_refs := take h (l_refs L); l_bad := l_bad L; l_odd := l_odd L |}.

(** A machine with the bookkeeping beside it. *)
Definition both {D X} (f : D -> D * X) (g : X -> ledger -> ledger) (e : D * ledger) : (D * ledger) * X :=
  let (d, x) := f (fst e) in ((d, g x (snd e)), x).
Definition one {D} (f : D -> D) (g : ledger -> ledger) (e : D * ledger) : D * ledger :=
  (f (fst e), g (snd e)).
Definition watched {D} (M : machine D) : machine (D * ledger) := {|
  m_rz := fun q a => one (m_rz M q a) (use_qubit q);
  m_rzz := fun p q a => one (m_rzz M p q a)
             (fun L => check (negb (Z.eqb p q)) (use_qubit q (use_qubit p L)));
  m_rxy := fun q a b => one (m_rxy M q a b) (use_qubit q);
  m_alloc := both (m_alloc M) (fun o L => match o with Some q => new_qubit q L | None => L end);
  m_free := fun q => one (m_free M q) (del_qubit q);
  m_reset := fun q => one (m_reset M q) (use_qubit q);
  m_measure := fun q => both (m_measure M q) (fun _ => use_qubit q);
  m_lazy := fun q => both (m_lazy M q) (fun h L => new_future h (use_qubit q L));
  m_leaked := fun q => both (m_leaked M q) (fun h L => new_future h (use_qubit q L));
  m_inc := fun h => one (m_inc M h) (inc_ref h);
  m_dec := fun h => one (m_dec M h) (dec_ref h);
  m_read_bool := fun h => both (m_read_bool M h) (fun _ => use_ref h);
  m_read_uint := fun h => both (m_read_uint M h) (fun _ => use_ref h);
  m_rint := both (m_rint M) (fun _ L => L);
  m_rfloat := both (m_rfloat M) (fun _ L => L);
  m_rbounded := fun b => both (m_rbounded M b) (fun _ L => L);
  m_advance := fun n => one (m_advance M n) (fun L => L);
  m_seed := fun n => one (m_seed M n) (fun L => L);
  m_shot := both (m_shot M) (fun _ L => L);
  m_print := fun k t v => one (m_print M k t v) (fun L => L);
  m_panic := one (m_panic M) (fun L => L) |}.

(** Handles of qubits and of futures in a value, and in the values of some wires. *)
Definition qubit_of (v : wval) : list Z :=
  match v with WQubit q | WOptQ (Some q) => [q] | _ => [] end.
Definition ref_of (v : wval) : list Z := match v with WFut _ h => [h] | _ => [] end.
Definition held (h : wval -> list Z) (env : venv) (ws : list nat) : list Z :=
  flat_map (fun w => match lookup env w with Some v => h v | None => [] end) ws.

(** The bookkeeping fits the values of the wires. *)
Definition balanced (env : venv) (ws : list nat) (L : ledger) : Prop :=
  l_bad L = false /\ NoDup (l_qubits L) /\
  Permutation (l_qubits L) (held qubit_of env ws) /\
  Permutation (l_refs L) (held ref_of env ws).
