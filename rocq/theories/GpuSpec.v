(** Vocabulary for the GPU calls of [GpuModel]. *)
From Coq Require Import List Arith Bool ZArith String Ascii.
From Verif Require Import GlobModel LlvmModel GpuModel.
Import ListNotations.

(** ** Arguments *)
(** How a library reads a blob with the help of the signature: one byte for 'b', eight for 'i'
    and 'f', up to the colon. *)
Fixpoint number (bs : list Z) : Z :=
  match bs with [] => 0%Z | b :: bs => (b + 256 * number bs)%Z end.
Definition read8 (big : bool) (bs : list Z) : Z := number (if big then rev bs else bs).
Fixpoint read_blob (big : bool) (sig : string) (blob : list Z) : option (list arg * string) :=
  match sig with
  | EmptyString => None
  | String c sig =>
      if Ascii.eqb c ":" then match blob with [] => Some ([], sig) | _ => None end
      else if Ascii.eqb c "b" then
        match blob with
        | b :: blob =>
            match read_blob big sig blob with
            | Some (l, t) => Some (ABool (negb (Z.eqb b 0)) :: l, t) | None => None end
        | [] => None
        end
      else if List.length blob <? 8 then None
      else
        match read_blob big sig (skipn 8 blob) with
        | None => None
        | Some (l, t) =>
            let z := read8 big (firstn 8 blob) in
            if Ascii.eqb c "i" then Some (AInt z :: l, t)
            else if Ascii.eqb c "f" then Some (AFloat z :: l, t)
            else None
        end
  end.

(** Arguments which the calls take: numbers of 64 bits. *)
Definition fits64 (z : Z) : Prop := (0 <= z < 2 ^ 64)%Z.
Definition good_arg (a : arg) : Prop :=
  match a with ABool _ => True | AInt z => fits64 z | AFloat z => fits64 z | AOther => False end.
Definition out_letter (outs : list oty) (s : string) : Prop :=
  (outs = [] /\ s = "v"%string) \/ (outs = [OInt] /\ s = "i"%string) \/ (outs = [OFloat] /\ s = "f"%string).

(** ** Calls *)
(** Programs: operations of the extension and the unwrapping of an option, with wires. *)
Inductive gcmd := Do (o : gop) | Unwrap.
Definition gprog := list (gcmd * list nat * list nat).
Definition genv := list (nat * gval).

Section Run.
Variable World : Type.
Variable lib : ext -> World -> World * (bool * Z).
Variable big : bool.

Definition run_cmd (c : gcmd) (vs : list gval) (s : gstate World) : gres World (list gval) :=
  match c, vs with
  | Do o, _ => run_gop World lib big o vs s
  | Unwrap, [GOpt (Some r)] => GVal [GCtx r] s
  | Unwrap, [GOpt None] => GPanic s
  | Unwrap, _ => GStuck
  end.
(** What lookups of names have given. *)
Definition answer (c : gcmd) (vs : list gval) : list (bytes * Z) :=
  match c, vs with Do (GLookupName n), [GFn z] => [(n, z)] | _, _ => [] end.

(** The run of a program: the wires and the answers of lookups at its end. *)
Fixpoint grun (p : gprog) (env : genv) (ans : list (bytes * Z)) (s : gstate World)
  : gres World (genv * list (bytes * Z)) :=
  match p with
  | [] => GVal (env, ans) s
  | (c, ins, outs) :: p =>
      match lookups env ins with
      | None => GStuck
      | Some vs =>
          match run_cmd c vs s with
          | GStuck => GStuck
          | GPanic s => GPanic s
          | GVal ws s =>
              match bind outs ws env with
              | None => GStuck
              | Some env => grun p env (ans ++ answer c ws) s
              end
          end
      end
  end.

(** The start of a thread. *)
Definition fresh (w : World) : gstate World :=
  {| g_validated := false; g_ids := []; g_world := w; g_trace := [] |}.
End Run.
Arguments fresh {World}.

(** The calls of a run, the first one first. *)
Definition calls {World} (s : gstate World) : list (ext * bool) := rev (g_trace s).

(** Calls which must come after the validation of the version. *)
Definition gpu_call (x : ext) : bool :=
  match x with XInit _ | XDiscard _ | XFunction _ | XCall _ _ _ _ _ | XResult _ _ => true | _ => false end.
(** Calls whose response is checked. *)
Definition is_checked (x : ext) : bool :=
  match x with XGetError | XPanic _ => false | _ => true end.
Definition validated_first (t : list (ext * bool)) : Prop :=
  forall t1 x b t2, t = t1 ++ (x, b) :: t2 -> gpu_call x = true -> In (XValidate 0 1 0, true) t1.
(** At most one call that was answered with success. *)
Definition at_most_once (x : ext) (t : list (ext * bool)) : Prop :=
  forall t1 t2 t3, t <> t1 ++ (x, true) :: t2 ++ (x, true) :: t3.
(** A failure is followed by the request of its message and the panic, and by nothing else. *)
Definition stops (t : list (ext * bool)) : Prop :=
  forall t1 x t2, t = t1 ++ (x, false) :: t2 -> is_checked x = true ->
    exists b b', t2 = [(XGetError, b); (XPanic 70002, b')].
(** No wire has a context to begin with. *)
Definition no_context (env : genv) : Prop :=
  forall w v, lookup env w = Some v -> match v with GCtx _ | GOpt _ => False | _ => True end.

(** Functions which the code of a function calls, and of an operation. *)
Definition needs (f : gfn) : list gfn :=
  match f with
  | FValidation => [FResponse] | FLookup _ => [FValidation; FResponse] | FResponse => [FError]
  | FError => []
  end.
Definition op_needs (o : gop) : list gfn :=
  match o with
  | GGetContext => [FValidation; FResponse] | GDispose => [FResponse] | GLookupId _ => []
  | GLookupName n => [FLookup n] | GCall _ => [FResponse] | GRead [] => [] | GRead _ => [FResponse]
  end.

(** What an operation asks of the library, and what it gives for the answer [z]. *)
Inductive asks (big : bool) : gop -> list gval -> ext -> (Z -> list gval) -> Prop :=
| asks_context : forall i, asks big GGetContext [GArg (AInt i)] (XInit i) (fun z => [GOpt (Some z)])
| asks_dispose : forall r, asks big GDispose [GCtx r] (XDiscard r) (fun _ => [])
| asks_lookup : forall n, asks big (GLookupName n) [] (XFunction n) (fun z => [GFn z])
| asks_call : forall r f args outs t blob sig,
    read_blob big sig blob = Some (args, t) -> out_letter outs t ->
    asks big (GCall outs) (GCtx r :: GFn f :: map GArg args)
      (XCall r f (List.length blob) (map Some blob) sig) (fun _ => [GCtx r])
| asks_int : forall r, asks big (GRead [OInt]) [GCtx r] (XResult r 8) (fun z => [GCtx r; GArg (AInt z)])
| asks_float : forall r, asks big (GRead [OFloat]) [GCtx r] (XResult r 8) (fun z => [GCtx r; GArg (AFloat z)]).

(** Operations with inputs of the right types that ask something. *)
Definition asking (o : gop) (vs : list gval) : Prop :=
  match o, vs with
  | GGetContext, [GArg (AInt _)] => True
  | GDispose, [GCtx _] => True
  | GLookupName _, [] => True
  | GCall outs, GCtx _ :: GFn _ :: args =>
      exists l t, args = map GArg l /\ Forall good_arg l /\ out_letter outs t
  | GRead outs, [GCtx _] => outs = [OInt] \/ outs = [OFloat]
  | _, _ => False
  end.
