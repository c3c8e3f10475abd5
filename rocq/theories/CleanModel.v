(** Model of the two loops of resolve_modifier_with_entrypoints, tket/src/modifier/modifier_resolver.rs:
    the first puts a loaded function in the place of each chain of modifiers, the second cleans up.

    A graph is its nodes with their children and neighbours, in the order of the links and with one
    entry for each link; removing a node removes its links.  Of hugr the model assumes that a node
    which is not in the graph has no children and neighbours, and that removing it panics. *)
From Coq Require Import List Bool Arith.
Import ListNotations.

Record graph : Type := {
  nodes : list nat;
  kids : nat -> list nat;        (* children *)
  outs : nat -> list nat;        (* output_neighbours *)
  ins : nat -> list nat;         (* input_neighbours *)
  modifier : nat -> bool;        (* Modifier::from_optype(..).is_some() *)
  loads : nat -> bool;           (* a LoadFunction of a FuncDefn *)
}.
Definition mem (n : nat) (l : list nat) : bool := existsb (Nat.eqb n) l.

(** modifier_resolver.rs:641-657, verify *)
Inductive verdict : Type := VOk | NotModifier | NotInitialModifier | NoCaller.
Definition verify (g : graph) (n : nat) : verdict :=
  if negb (modifier g n) then NotModifier
  else match outs g n with
       | [c] => if modifier g c then NotInitialModifier else VOk
       | _ => NoCaller
       end.

(** modifier_resolver/call_modify.rs:109-134, trace_modifiers_chain, the last node of the chain; control
    and dagger have one input (power has a second one, which is not modelled).  None: NoTarget. *)
Fixpoint target (g : graph) (fuel : nat) (n : nat) : option (option nat) :=
  match fuel with
  | 0 => None
  | S fuel =>
      if modifier g n then match ins g n with [p] => target g fuel p | _ => Some None end
      else Some (Some n)
  end.
(** modifier_resolver/call_modify.rs:137-163, get_loaded_function: other targets give an error that is skipped *)
Definition applicable (g : graph) (t : option nat) : bool := match t with Some t => loads g t | None => false end.

(** modifier_resolver.rs:670-692 and call_modify.rs:95-103: the new LoadFunction is put after the modifier
    among the children and takes over its uses.  Simplification: the new function, which holds no
    modifiers, and its link to the LoadFunction are left out. *)
Definition rewire (g : graph) (n new : nat) : graph := {|
  nodes := new :: nodes g;
  kids := fun x => if x =? new then [] else flat_map (fun y => if y =? n then [n; new] else [y]) (kids g x);
  outs := fun x => if x =? new then outs g n else if x =? n then [] else outs g x;
  ins := fun x => if x =? new then [] else map (fun y => if y =? n then new else y) (ins g x);
  modifier := fun x => if x =? new then false else modifier g x;
  loads := fun x => if x =? new then true else loads g x;
|}.

(** modifier_resolver.rs:1071-1091; [fresh] is the next new node; errors of resolving a function that is
    loaded are not modelled *)
Fixpoint resolve (fuel fresh : nat) (g : graph) (visited queue : list nat) : option graph :=
  match queue with
  | [] => Some g
  | n :: queue =>
      match fuel with
      | 0 => None
      | S fuel =>
          if negb (mem n (nodes g)) || mem n visited then resolve fuel fresh g visited queue
          else
            let new l := filter (fun m => negb (mem m visited)) l in
            let queue := queue ++ new (kids g n) ++ new (ins g n ++ outs g n) in
            match verify g n with
            | VOk =>
                match target g fuel n with
                | None => None
                | Some t =>
                    if applicable g t then resolve fuel (S fresh) (rewire g n fresh) (n :: visited) queue
                    else resolve fuel fresh g (n :: visited) queue
                end
            | _ => resolve fuel fresh g (n :: visited) queue
            end
      end
  end.

Section Clean.
Variable g : graph.

(** The graph without the nodes that are gone: contains_node, children, output_neighbours, all_neighbours. *)
Definition present (gone : list nat) (n : nat) : bool := mem n (nodes g) && negb (mem n gone).
Definition look (gone : list nat) (f : nat -> list nat) (n : nat) : list nat :=
  if present gone n then filter (fun m => negb (mem m gone)) (f n) else [].
Definition children (gone : list nat) (n : nat) : list nat := look gone (kids g) n.
Definition output_neighbours (gone : list nat) (n : nat) : list nat := look gone (outs g) n.
Definition all_neighbours (gone : list nat) (n : nat) : list nat := look gone (fun n => ins g n ++ outs g n) n.

Inductive result : Type := Ok (gone : list nat) | Panic | NoFuel.

(** modifier_resolver.rs:1105-1109; the head of the list is the top of the stack *)
Fixpoint remove_down (fuel : nat) (gone stack : list nat) : result :=
  match stack with
  | [] => Ok gone
  | n :: stack =>
      match fuel with
      | 0 => NoFuel
      | S fuel =>
          let stack := rev (output_neighbours gone n) ++ stack in
          if present gone n then remove_down fuel (n :: gone) stack else Panic
      end
  end.

(** modifier_resolver.rs:1097-1112 *)
Fixpoint clean (fuel : nat) (gone visited queue : list nat) : result :=
  match queue with
  | [] => Ok gone
  | n :: queue =>
      match fuel with
      | 0 => NoFuel
      | S fuel =>
          let new l := filter (fun m => negb (mem m visited)) l in
          let queue := queue ++ new (children gone n) ++ new (all_neighbours gone n) in
          let visited := n :: visited in
          if present gone n && modifier g n then
            match remove_down fuel gone [n] with
            | Ok gone => clean fuel gone visited queue
            | r => r
            end
          else clean fuel gone visited queue
      end
  end.
Definition clean_up (fuel : nat) (entries : list nat) : result := clean fuel [] [] entries.
End Clean.

(** modifier_resolver.rs:1060-1112: the graph after the first loop, and the nodes the second loop removes *)
Definition run (fuel fresh : nat) (g : graph) (entries : list nat) : option (graph * result) :=
  match resolve fuel fresh g [] entries with
  | Some g' => Some (g', clean_up g' fuel entries)
  | None => None
  end.
