(** Circuits as graphs, what they compute, and the replacement of a part of a circuit: the vocabulary of
    the theorems about pattern matching and rewriting. *)
From Coq Require Import List Bool Arith Permutation.
Import ListNotations.

(** A value: a circuit input, or an output of a node. *)
Inductive source : Type := Inp (k : nat) | Out (n j : nat).

Section Circuits.
Variable Op : Type.
Variables ain aout : Op -> nat.          (* number of input and output ports *)
Variable lin : Op -> nat -> bool.        (* whether the values at an input port cannot be copied *)

(** [c_src n i]: where the value at input port [i] of node [n] comes from. *)
Record circuit : Type := { c_inputs : nat; c_nodes : list (nat * Op); c_src : nat -> nat -> source; c_outs : list source }.
Definition ins (c : circuit) (x : nat * Op) : list source := map (c_src c (fst x)) (seq 0 (ain (snd x))).
Definition outs (x : nat * Op) : list source := map (Out (fst x)) (seq 0 (aout (snd x))).
Definition linear_ins (c : circuit) (x : nat * Op) : list source := map (c_src c (fst x)) (filter (lin (snd x)) (seq 0 (ain (snd x)))).

(** Sources that exist if the nodes [l] have run. *)
Definition known (c : circuit) (l : list (nat * Op)) (w : source) : Prop :=
  (exists k, w = Inp k /\ k < c_inputs c) \/ exists x, In x l /\ In w (outs x).
(** An order in which the nodes can run. *)
Definition ordered (c : circuit) (l : list (nat * Op)) : Prop := forall a x b, l = a ++ x :: b -> forall w, In w (ins c x) -> known c a w.
(** All uses of values. *)
Definition uses (c : circuit) (l : list (nat * Op)) : list source := flat_map (ins c) l ++ c_outs c.
(** Linear values are used at most once. *)
Definition linear_once (c : circuit) (l : list (nat * Op)) : Prop :=
  forall x w, In x l -> In w (linear_ins c x) -> forall a b, uses c l = a ++ w :: b -> ~ In w a /\ ~ In w b.
(** The nodes, in an order in which they can run. *)
Record schedule (c : circuit) (l : list (nat * Op)) : Prop := {
  v_perm : Permutation (c_nodes c) l;
  v_ids : NoDup (map fst l);
  v_order : ordered c l;
  v_outs : forall w, In w (c_outs c) -> known c l w;
  v_linear : linear_once c l }.

(** Which values cannot be copied, by the types of the ports: [fi] tells it for the inputs, [fo] for the outputs of
    the circuit. Such values are used at most once, and copyable values only by ports for copyable values. *)
Variable lout : Op -> nat -> bool.
Definition flag (c : circuit) (fi : list bool) (w : source) : bool :=
  match w with Inp k => nth k fi false | Out n j => match find (fun x => Nat.eqb (fst x) n) (c_nodes c) with Some x => lout (snd x) j | None => false end end.
Definition source_eq_dec (v w : source) : {v = w} + {v <> w}.
Proof. decide equality; apply Nat.eq_dec. Defined.
Record linear_typed (c : circuit) (fi fo : list bool) : Prop := {
  t_ins : length fi = c_inputs c;
  t_port : forall x k, In x (c_nodes c) -> k < ain (snd x) -> lin (snd x) k = flag c fi (c_src c (fst x) k);
  t_outs : map (flag c fi) (c_outs c) = fo;
  t_once : forall w, flag c fi w = true -> count_occ source_eq_dec (uses c (c_nodes c)) w <= 1 }.

(** ** What circuits compute

    An action applies an operation to named values. Any interpretation in which actions on different
    values commute, and equal actions on corresponding values have corresponding results: for
    instance valuations of the wires, or a quantum state of named qubits with valuations that tell which qubit a wire holds.
    [like C s t]: the values of corresponding wires agree; [ok L s]: the values of the wires in [L] can be used
    separately (different wires hold different qubits); [kind s w]: whether the value of [w] cannot be copied. *)
Record action : Type := { a_op : Op; a_ins : list source; a_outs : list source }.
Definition a_linear (a : action) : list source := map snd (filter (fun x => lin (a_op a) (fst x)) (combine (seq 0 (length (a_ins a))) (a_ins a))).
Definition independent (a b : action) : Prop :=
  (forall w, In w (a_outs a) -> ~ In w (a_ins b) /\ ~ In w (a_outs b)) /\
  (forall w, In w (a_outs b) -> ~ In w (a_ins a) /\ ~ In w (a_outs a)) /\
  (forall w, In w (a_linear a) -> ~ In w (a_ins b)) /\ (forall w, In w (a_linear b) -> ~ In w (a_ins a)).
Definition without (ws : list source) (C : list (source * source)) : list (source * source) := filter (fun x => if in_dec source_eq_dec (fst x) ws then false else true) C.
Definition wellformed (a : action) : Prop := length (a_ins a) = ain (a_op a) /\ NoDup (a_linear a) /\ length (a_outs a) = aout (a_op a) /\ NoDup (a_outs a).
Definition after_use (a : action) (L : list source) : list source := filter (fun w => if in_dec source_eq_dec w (a_linear a) then false else true) L ++ a_outs a.
Record interp : Type := {
  St : Type;
  act : action -> St -> St;
  same : St -> St -> Prop;
  like : list (source * source) -> St -> St -> Prop;
  ok : list source -> St -> Prop;
  kind : St -> source -> bool;
  same_refl : forall s, same s s;
  same_sym : forall s t, same s t -> same t s;
  same_trans : forall s t u, same s t -> same t u -> same s u;
  act_same : forall a s t, same s t -> same (act a s) (act a t);
  like_same : forall C s t s' t', like C s t -> same s s' -> same t t' -> like C s' t';
  like_sub : forall C C' s t, like C s t -> incl C' C -> like C' s t;
  like_refl : forall L s, ok L s -> like (map (fun w => (w, w)) L) s s;
  like_trans : forall L M N s t u, length L = length M -> length M = length N -> like (combine L M) s t -> like (combine M N) t u -> like (combine L N) s u;
  like_step : forall C s t a b, like C s t -> wellformed a -> wellformed b -> a_op a = a_op b -> Forall2 (fun w w' => In (w, w') C) (a_ins a) (a_ins b) ->
    (forall w, In w (a_outs a) -> ~ In w (map fst C)) -> (forall w, In w (a_outs b) -> ~ In w (map snd C)) ->
    like (without (a_linear a) C ++ combine (a_outs a) (a_outs b)) (act a s) (act b t);
  like_ok : forall C s t, like C s t -> ok (map fst C) s /\ ok (map snd C) t;
  ok_step : forall L s a, ok L s -> wellformed a -> incl (a_ins a) L -> (forall w, In w (a_outs a) -> ~ In w L) -> ok (after_use a L) (act a s);
  kind_like : forall C s t w w', like C s t -> In (w, w') C -> kind s w = kind t w';
  kind_step : forall s a, wellformed a -> (forall k w, nth_error (a_ins a) k = Some w -> kind s w = lin (a_op a) k) ->
    forall j w, nth_error (a_outs a) j = Some w -> kind (act a s) w = lout (a_op a) j;
  kind_other : forall s a w, ~ In w (a_outs a) -> kind (act a s) w = kind s w;
  commute : forall L a b s, ok L s -> wellformed a -> wellformed b -> incl (a_ins a) L -> incl (a_ins b) L -> (forall w, In w (a_outs a) -> ~ In w L) -> (forall w, In w (a_outs b) -> ~ In w L) ->
    independent a b -> same (act a (act b s)) (act b (act a s)) }.
Definition action_of (c : circuit) (x : nat * Op) : action := {| a_op := snd x; a_ins := ins c x; a_outs := outs x |}.
Definition run (I : interp) (l : list action) (s : St I) : St I := fold_left (fun s a => act I a s) l s.
(** The inputs hold values of the right kinds. *)
Definition typed_inputs (I : interp) (fi : list bool) (c : circuit) (f : source -> source) (s : St I) : Prop := forall k, k < c_inputs c -> kind I s (f (Inp k)) = nth k fi false.
(** Two circuits compute the same, in whatever order their nodes run. *)
Definition equivalent (I : interp) (fi : list bool) (c d : circuit) : Prop :=
  c_inputs c = c_inputs d /\ length (c_outs c) = length (c_outs d) /\
  forall l m s t, schedule c l -> schedule d m -> like I (map (fun k => (Inp k, Inp k)) (seq 0 (c_inputs c))) s t -> typed_inputs I fi c (fun w => w) s ->
    like I (combine (c_outs c) (c_outs d)) (run I (map (action_of c) l) s) (run I (map (action_of d) m) t).
(** Two circuits compute the same in every place: their values may have other names, and other values
    are not touched. *)
Definition rename (f : source -> source) (a : action) : action := {| a_op := a_op a; a_ins := map f (a_ins a); a_outs := map f (a_outs a) |}.
Definition linear_inputs (c : circuit) (l : list (nat * Op)) : list source := filter (fun w => match w with Inp _ => true | _ => false end) (flat_map (linear_ins c) l).
Definition interchangeable (I : interp) (fi : list bool) (c d : circuit) : Prop :=
  c_inputs c = c_inputs d /\ length (c_outs c) = length (c_outs d) /\
  forall l m f g C s t, schedule c l -> schedule d m -> like I C s t ->
    (forall k, k < c_inputs c -> In (f (Inp k), g (Inp k)) C) -> typed_inputs I fi c f s ->
    (forall k k', k < c_inputs c -> k' < c_inputs c -> nth k fi false = true -> f (Inp k) = f (Inp k') \/ g (Inp k) = g (Inp k') -> k = k') ->
    (forall x w, In x l -> In w (outs x) -> ~ In (f w) (map fst C)) -> (forall x w, In x m -> In w (outs x) -> ~ In (g w) (map snd C)) ->
    (forall n j n' j', f (Out n j) = f (Out n' j') -> In n (map fst l) -> In n' (map fst l) -> n = n' /\ j = j') ->
    (forall n j n' j', g (Out n j) = g (Out n' j') -> In n (map fst m) -> In n' (map fst m) -> n = n' /\ j = j') ->
    like I (without (map f (linear_inputs c l)) C ++ combine (map f (c_outs c)) (map g (c_outs d)))
      (run I (map (fun x => rename f (action_of c x)) l) s) (run I (map (fun x => rename g (action_of d x)) m) t).

(** ** Part of a circuit that looks like a pattern *)
(** [f]: the nodes of the pattern in the circuit; [i]: what the inputs of the pattern are in the circuit. *)
Record embedding (p c : circuit) (f : nat -> nat) (i : nat -> source) : Prop := {
  e_inj : forall x y, In x (c_nodes p) -> In y (c_nodes p) -> f (fst x) = f (fst y) -> x = y;
  e_op : forall x, In x (c_nodes p) -> In (f (fst x), snd x) (c_nodes c);
  e_wire : forall x k, In x (c_nodes p) -> k < ain (snd x) ->
    c_src c (f (fst x)) k = match c_src p (fst x) k with Inp m => i m | Out n j => Out (f n) j end }.
Definition image (p : circuit) (f : nat -> nat) (n : nat) : Prop := exists x, In x (c_nodes p) /\ n = f (fst x).
(** What depends on the image. *)
Inductive after (p c : circuit) (f : nat -> nat) : nat -> Prop :=
  | after_image n : image p f n -> after p c f n
  | after_step x k n j : In x (c_nodes c) -> k < ain (snd x) -> c_src c (fst x) k = Out n j -> after p c f n -> after p c f (fst x).
(** No input of the image depends on the image, and no value is used outside that is not an output of the pattern. *)
Definition convex (p c : circuit) (f : nat -> nat) (i : nat -> source) : Prop := forall k n j, k < c_inputs p -> i k = Out n j -> ~ after p c f n.
Definition closed (p c : circuit) (f : nat -> nat) : Prop :=
  (forall x k n j, In x (c_nodes c) -> ~ image p f (fst x) -> k < ain (snd x) -> c_src c (fst x) k = Out (f n) j -> In n (map fst (c_nodes p)) -> In (Out n j) (c_outs p)) /\
  (forall n j, In (Out (f n) j) (c_outs c) -> In n (map fst (c_nodes p)) -> In (Out n j) (c_outs p)).
End Circuits.
Arguments c_inputs {Op}. Arguments c_nodes {Op}. Arguments c_src {Op}. Arguments c_outs {Op}.
Arguments a_op {Op}. Arguments a_ins {Op}. Arguments a_outs {Op}.
Arguments ins {Op}. Arguments outs {Op}. Arguments linear_ins {Op}. Arguments known {Op}. Arguments ordered {Op}. Arguments uses {Op}. Arguments linear_once {Op}. Arguments schedule {Op}.
Arguments v_perm {Op ain aout lin c l}. Arguments v_ids {Op ain aout lin c l}. Arguments v_order {Op ain aout lin c l}. Arguments v_outs {Op ain aout lin c l}. Arguments v_linear {Op ain aout lin c l}.
Arguments flag {Op}. Arguments linear_typed {Op}. Arguments t_ins {Op ain lin lout c fi fo}. Arguments t_port {Op ain lin lout c fi fo}. Arguments t_outs {Op ain lin lout c fi fo}. Arguments t_once {Op ain lin lout c fi fo}.
Arguments a_linear {Op}. Arguments independent {Op}. Arguments action_of {Op}. Arguments rename {Op}. Arguments wellformed {Op}. Arguments after_use {Op}. Arguments kind {Op ain aout lin lout}. Arguments typed_inputs {Op ain aout lin lout}. Arguments linear_inputs {Op}.
Arguments St {Op ain aout lin lout}. Arguments act {Op ain aout lin lout}. Arguments same {Op ain aout lin lout}. Arguments like {Op ain aout lin lout}. Arguments ok {Op ain aout lin lout}. Arguments run {Op ain aout lin lout}.
Arguments equivalent {Op ain aout lin lout}. Arguments interchangeable {Op ain aout lin lout}. Arguments embedding {Op}. Arguments image {Op}. Arguments after {Op}. Arguments convex {Op}. Arguments closed {Op}.
Arguments e_inj {Op ain p c f i}. Arguments e_op {Op ain p c f i}. Arguments e_wire {Op ain p c f i}.
