(** Pytket circuits, typed circuits, and what it means that a circuit does what the commands of a pytket
    circuit do (properties C40, C41, C56). Circuits and their meaning are those of EncSpec. *)
From Coq Require Import List Bool Arith.
From Verif Require Import EncSpec.
Import ListNotations.

(** ** Types of wires: qubits, the native and the opaque boolean, parameters, tuples, and others. *)
Inductive ty : Type := TQ | TB | TT | TP | TTup (l : list ty) | TX (n : nat).
(** One qubit, one bit, or a parameter. *)
Definition plain_ty (t : ty) : Prop := t = TQ \/ t = TB \/ t = TT \/ t = TP.
(** No opaque booleans. *)
Definition native_ty (t : ty) : Prop := t = TQ \/ t = TB \/ t = TP.

Section Typed.
Variables Op E : Type.
(** A node with the signature of its operation. *)
Record tnode : Type := { t_node : node Op E; t_in : list ty; t_out : list ty }.
Record tcircuit : Type := { t_inputs : list (wire * count * ty); t_nodes : list tnode; t_outputs : list (wire * ty) }.
Definition untyped (c : tcircuit) : circuit Op E :=
  {| inputs := map fst (t_inputs c); nodes := map t_node (t_nodes c); outputs := map fst (t_outputs c) |}.
Fixpoint type_of (g : list (wire * ty)) (w : wire) : option ty :=
  match g with [] => None | (x, t) :: g => if Nat.eqb x w then Some t else type_of g w end.
(** Every wire has the type that its user expects. *)
Fixpoint checked (g : list (wire * ty)) (ns : list tnode) (outs : list (wire * ty)) : Prop :=
  match ns with
  | [] => forall w t, In (w, t) outs -> type_of g w = Some t
  | n :: ns =>
      map (type_of g) (nin (t_node n)) = map Some (t_in n) /\
      checked (combine (map fst (nout (t_node n))) (t_out n) ++ g) ns outs
  end.
Definition well_typed (c : tcircuit) : Prop :=
  checked (map (fun x => (fst (fst x), snd x)) (t_inputs c)) (t_nodes c) (t_outputs c).
End Typed.
Arguments t_node {Op E}. Arguments t_in {Op E}. Arguments t_out {Op E}.
Arguments t_inputs {Op E}. Arguments t_nodes {Op E}. Arguments t_outputs {Op E}. Arguments untyped {Op E}.
Arguments checked {Op E}. Arguments well_typed {Op E}.

(** ** Pytket circuits: registers, and commands with the names of the registers that they act on. *)
Record pcommand (POp E : Type) : Type := { p_op : POp; p_args : list nat; p_params : list E }.
Arguments p_op {POp E}. Arguments p_args {POp E}. Arguments p_params {POp E}.
Record pcircuit (POp E : Type) : Type := { p_qubits : list nat; p_bits : list nat; p_commands : list (pcommand POp E) }.
Arguments p_qubits {POp E}. Arguments p_bits {POp E}. Arguments p_commands {POp E}.
Definition mem (i : nat) (l : list nat) : bool := existsb (Nat.eqb i) l.

Section Run.
Variables POp E V P : Type.
Variable den : E -> P.
(** What an operation makes of its qubits and bits. *)
Variable psem : POp -> list V -> list V -> list P -> list V * list V.
Definition regs : Type := kind -> nat -> V.
Definition put_reg (r : regs) (k : kind) (i : nat) (v : V) : regs := fun k' j => if kind_eqb k' k && Nat.eqb j i then v else r k' j.
Fixpoint put_regs (r : regs) (k : kind) (is : list nat) (vs : list V) : regs :=
  match is, vs with i :: is, v :: vs => put_regs (put_reg r k i v) k is vs | _, _ => r end.
(** [bits]: the bits of the circuit; all other arguments are qubits. *)
Definition arg_qubits (bits : list nat) (args : list nat) : list nat := filter (fun i => negb (mem i bits)) args.
Definition arg_bits (bits : list nat) (args : list nat) : list nat := filter (fun i => mem i bits) args.
Definition run_pcommand (bits : list nat) (r : regs) (c : pcommand POp E) : regs :=
  let qs := arg_qubits bits (p_args c) in
  let bs := arg_bits bits (p_args c) in
  let out := psem (p_op c) (map (r Qb) qs) (map (r Bt) bs) (map den (p_params c)) in
  put_regs (put_regs r Qb qs (fst out)) Bt bs (snd out).
Definition run_pcircuit (c : pcircuit POp E) (r : regs) : regs := fold_left (run_pcommand (p_bits c)) (p_commands c) r.
(** Registers are declared once, arguments are declared and different. *)
Definition sane (c : pcircuit POp E) : Prop :=
  NoDup (p_qubits c) /\ NoDup (p_bits c) /\
  forall x, In x (p_commands c) -> NoDup (p_args x) /\ forall i, In i (p_args x) -> In i (p_qubits c) \/ In i (p_bits c).
End Run.
Arguments put_reg {V}. Arguments put_regs {V}. Arguments run_pcommand {POp E V P}. Arguments run_pcircuit {POp E V P}. Arguments sane {POp E}.

(** What a decoder makes of a command: the operation and its signature; the input bits are the first
    [d_take], and the output bits all after the first [d_drop]. *)
Record dec (Op : Type) : Type := { d_op : Op; d_in : list ty; d_out : list ty; d_take : nat; d_drop : nat }.
Arguments d_op {Op}. Arguments d_in {Op}. Arguments d_out {Op}. Arguments d_take {Op}. Arguments d_drop {Op}.

(** ** When a circuit does what a pytket circuit does. The inputs are the first registers, in order; the
    other registers are zero at the start. [oq]: the qubits in the order in which the outputs have them. *)
Section Same.
Variables Op POp E V P : Type.
Variables (zero one : V) (run : Op -> list V -> list V -> list P -> list V * list V) (prun : Op -> list P -> list P) (den : E -> P).
Variable psem : POp -> list V -> list V -> list P -> list V * list V.
Definition qubits_of (ts : list ty) : nat := length (filter (fun t => match t with TQ => true | _ => false end) ts).
Definition bits_of (ts : list ty) : nat := length (filter (fun t => match t with TB | TT => true | _ => false end) ts).
Definition params_of (ts : list ty) : nat := length (filter (fun t => match t with TP => true | _ => false end) ts).
Definition same_meaning (p : pcircuit POp E) (oq : list nat) (ops : list E) (c : tcircuit Op E) : Prop :=
  let ti := map snd (t_inputs c) in
  let to := map snd (t_outputs c) in
  forall (e0 : env V P) (r0 : regs V) v0,
    gather e0 (map (fun x => fst (fst x)) (t_inputs c)) = Some v0 ->
    (forall x v, In x (t_inputs c) -> look e0 (fst (fst x)) = Some v ->
       length (vq v) = cq (snd (fst x)) /\ length (vb v) = cb (snd (fst x)) /\ length (vp v) = cp (snd (fst x))) ->
    vq v0 = map (r0 Qb) (firstn (qubits_of ti) (p_qubits p)) ->
    firstn (length (p_bits p)) (vb v0) = map (r0 Bt) (firstn (bits_of ti) (p_bits p)) ->
    (forall i, In i (skipn (qubits_of ti) (p_qubits p)) -> r0 Qb i = zero) ->
    (forall i, In i (skipn (bits_of ti) (p_bits p)) -> r0 Bt i = zero) ->
    exists e v,
      meaning Op E V P zero one run prun den (nodes (untyped c)) e0 = Some e /\
      gather e (outputs (untyped c)) = Some v /\
      vq v = map (run_pcircuit den psem p r0 Qb) (firstn (qubits_of to) oq) /\
      vb v = map (run_pcircuit den psem p r0 Bt) (firstn (bits_of to) (p_bits p)) /\
      vp v = map den (firstn (params_of to) ops).

(** A command with these numbers of qubits, bits and parameters is translated into an operation that
    does the same: bits that are only read stay as they are. *)
Definition same_sem (o : POp) (nq nb np : nat) (d : dec Op) : Prop :=
  (forall t, In t (d_out d) -> t = TQ \/ t = TB \/ t = TT) /\
  (qubits_of (d_in d) = nq -> bits_of (d_in d) = d_take d -> params_of (d_in d) = np -> qubits_of (d_out d) = nq -> d_drop d + bits_of (d_out d) = nb ->
  forall qs bs ps, length qs = nq -> length bs = nb -> length ps = np ->
    let out := run (d_op d) qs (firstn (d_take d) bs) ps in
    length (fst out) = nq /\ length (snd out) = nb - d_drop d /\ psem o qs bs ps = (fst out, firstn (d_drop d) bs ++ snd out)).
Definition same_opaque (o : POp) (nq nb np : nat) (h : Op) : Prop :=
  forall qs bs ps, length qs = nq -> length bs = nb -> length ps = np ->
    let out := run h qs bs ps in length (fst out) = nq /\ length (snd out) = nb /\ psem o qs bs ps = out.
(** All that the decoders make of an operation does the same. *)
Definition understood (lookup : POp -> nat -> nat -> nat -> option (dec Op)) (opaque : POp -> Op) (o : POp) : Prop :=
  forall nq nb np, match lookup o nq nb np with Some d => same_sem o nq nb np d | None => same_opaque o nq nb np (opaque o) end.
End Same.
Arguments understood {Op POp V P}.
Arguments same_meaning {Op POp E V P}. Arguments same_sem {Op POp V P}. Arguments same_opaque {Op POp V P}.
