(** Dataflow graphs with borrow arrays, and what they compute. *)
From Coq Require Import List Bool Arith Lia.
Import ListNotations.

(** A wire: node and output port. *)
Definition wire : Type := (nat * nat)%type.
Definition wire_dec (a b : wire) : {a = b} + {a <> b}.
Proof. decide equality; apply Nat.eq_dec. Defined.

Section Graph.
Variable O : Type.
(** Operations: borrow, return, loading the constant [i], anything else with its number of
    outputs (also the region's input and output). *)
Inductive kind : Type := KBorrow | KReturn | KConst (i : nat) | KOther (o : O) (outs : nat).
Definition n_outs (k : kind) : nat :=
  match k with KBorrow => 2 | KReturn => 1 | KConst _ => 1 | KOther _ n => n end.
(** A node: identifier, operation, the wires connected to its input ports in port order.
    A dataflow region is a list of nodes. *)
Record node : Type := { nid : nat; knd : kind; ins : list wire }.
Definition graph : Type := list node.

(** ** Meaning *)
Section Meaning.
Variable X : Type.
(** A value: an array, each cell of which holds a value or is borrowed; an index; others. *)
Inductive val : Type := VA (cells : list (option val)) | VI (i : nat) | VX (x : X).
(** What the other operations do; [None]: it panics. *)
Variable sem : O -> list val -> option (list val).

Fixpoint set_cell (i : nat) (x : option val) (l : list (option val)) : list (option val) :=
  match l, i with
  | [], _ => []
  | _ :: l, 0 => x :: l
  | y :: l, S i => y :: set_cell i x l
  end.

(** One node. Borrowing an absent or already borrowed cell panics, as does returning to an absent or
    occupied one. *)
Definition eval_node (k : kind) (vs : list val) : option (list val) :=
  match k, vs with
  | KBorrow, [VA c; VI i] =>
      match nth_error c i with Some (Some v) => Some [VA (set_cell i None c); v] | _ => None end
  | KReturn, [VA c; VI i; v] =>
      match nth_error c i with Some None => Some [VA (set_cell i (Some v) c)] | _ => None end
  | KConst i, [] => Some [VI i]
  | KOther o n, _ =>
      match sem o vs with Some outs => if Nat.eqb (length outs) n then Some outs else None | None => None end
  | _, _ => None
  end.

Definition env : Type := wire -> option val.
Fixpoint read (e : env) (ws : list wire) : option (list val) :=
  match ws with
  | [] => Some []
  | w :: ws => match e w, read e ws with Some v, Some vs => Some (v :: vs) | _, _ => None end
  end.
Definition bind (n : nat) (outs : list val) (e : env) : env := fun w => if Nat.eqb (fst w) n then nth_error outs (snd w) else e w.
(** Running a region in the order of the list: the values of all wires, or [None] if it panics. *)
Fixpoint eval (g : graph) (e : env) : option env :=
  match g with
  | [] => Some e
  | n :: g =>
      match read e (ins n) with
      | None => None
      | Some vs => match eval_node (knd n) vs with None => None | Some outs => eval g (bind (nid n) outs e) end
      end
  end.
Definition run_region (g : graph) : option env := eval g (fun _ => None).

(** [g'] does what [g] does: one panics iff the other does; otherwise each operation other than
    borrows and returns (hence also the region's output) is still there and gets the same inputs, and
    every wire left, except for the arrays between borrows and returns, carries the same value. *)
Definition is_br (k : kind) : bool := match k with KBorrow | KReturn => true | _ => false end.
Definition same_behaviour (g g' : graph) : Prop :=
  (forall n', In n' g' -> exists n, In n g /\ nid n = nid n' /\ knd n = knd n') /\
  match run_region g, run_region g' with
  | None, None => True
  | Some e, Some e' =>
      (forall n, In n g -> is_br (knd n) = false ->
         exists n', In n' g' /\ nid n' = nid n /\ knd n' = knd n /\ read e' (ins n') = read e (ins n)) /\
      (forall n' p, In n' g' -> (is_br (knd n') = true -> p <> 0) -> e' (nid n', p) = e (nid n', p))
  | _, _ => False
  end.
End Meaning.

(** ** Well-formed regions *)
(** The list is a topological order: each input wire comes from an earlier node. *)
Definition produced (g : graph) (w : wire) : Prop := exists m, In m g /\ nid m = fst w /\ snd w < n_outs (knd m).
Definition topological (g : graph) : Prop :=
  NoDup (map nid g) /\ forall l1 n l2, g = l1 ++ n :: l2 -> forall w, In w (ins n) -> produced l1 w.
(** How often a wire is used. *)
Definition uses (g : graph) (w : wire) : nat := count_occ wire_dec (flat_map ins g) w.
(** Types of wires: [ty] gives the type, [elem] the element type of an array type. Arrays are linear;
    borrows and returns are typed as in their declaration. *)
Section Typed.
Variables (T : Type) (is_array : T -> bool) (elem : T -> T).
Variable ty : wire -> T.
Definition typed (g : graph) : Prop :=
  (forall w, produced g w -> is_array (ty w) = true -> uses g w = 1) /\
  (forall n, In n g ->
     match knd n with
     | KBorrow => exists a ix, ins n = [a; ix] /\ is_array (ty a) = true /\ is_array (ty ix) = false /\
                    ty (nid n, 0) = ty a /\ ty (nid n, 1) = elem (ty a)
     | KReturn => exists a ix v, ins n = [a; ix; v] /\ is_array (ty a) = true /\ is_array (ty ix) = false /\
                    ty (nid n, 0) = ty a /\ ty v = elem (ty a)
     | KConst _ => ins n = [] /\ is_array (ty (nid n, 0)) = false
     | KOther _ _ => True
     end).
End Typed.
End Graph.
Arguments KBorrow {O}. Arguments KReturn {O}. Arguments KConst {O}. Arguments KOther {O}.
Arguments n_outs {O}. Arguments nid {O}. Arguments knd {O}. Arguments ins {O}. Arguments Build_node {O}.
Arguments VA {X}. Arguments VI {X}. Arguments VX {X}. Arguments set_cell {X}. Arguments read {X}. Arguments bind {X}.
Arguments eval_node {O X}. Arguments eval {O X}. Arguments run_region {O X}. Arguments is_br {O}. Arguments same_behaviour {O X}.
Arguments produced {O}. Arguments topological {O}. Arguments uses {O}. Arguments typed {O T}.
