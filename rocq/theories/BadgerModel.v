(** Model of multi-threaded Badger: tket/src/optimiser/pqueue_worker.rs,
    tket/src/optimiser/badger/worker.rs and badger_multithreaded in
    tket/src/optimiser/badger.rs, as a transition system of the main thread, the queue thread
    and the workers.

    One step is one channel operation or one access of the shared bound, with the local work
    that goes with it. Channels are crossbeam channels: [push] and [log] unbounded FIFOs, [pop] a
    rendezvous, so handing out work is a joint step of queue and worker (the message of the
    [send] arm of [select!] is computed when the arm is selected). A channel is disconnected
    when the thread at its other end has ended. Circuits, costs, hashes, rewrites with their cost
    changes are parameters; [rw] is [apply_rewrites (get_rewrites ..)]. [hash] is [None] for
    invalid circuits. Logging to the user and thread start-up are left out. *)
From Coq Require Import List Bool Arith.
From Verif Require Import PQueueSpec PQueueModel.
Import ListNotations.
Local Notation S_ := Datatypes.S (only parsing).

Section Badger.
Variables (S P D : Type) (ltb : P -> P -> bool).
Variables (hash : S -> option nat) (rw : S -> list (S * D)) (add_delta : P -> D -> P).

(** Options of badger.rs:41-100 that matter here: queue size, limit on seen circuits, whether
    one of the timeouts is set, number of threads. *)
Record options : Type := { queue_size : nat; max_circuit_count : option nat; timeouts : bool; n_threads : nat }.

(** pqueue_worker.rs:19, Work; 49-57, LogMessage. *)
Definition work : Type := entry S P.
Inductive msg : Type := NewBest (s : S) (c : P) | StateCount (processed seen queue_length : nat).

(** The states of the threads. [QPanic]: an unwrap failed. *)
Inductive qstatus : Type := QRun | QDone | QPanic.
Inductive wstatus : Type :=
| WIdle                                  (* waiting in recv *)
| WBusy (w : work)                       (* rewriting *)
| WReady (batch : list work)             (* about to send the results *)
| WDone.
Inductive mstatus : Type :=
| MLoop                                  (* badger.rs:280-328 *)
| MDrain                                 (* badger.rs:331-351 *)
| MJoin                                  (* badger.rs:361 *)
| MDone.                                 (* badger.rs:363 *)

(** The whole state. [handed] (the work handed out) and [enqueued] (the work that reached the
    queue) are not in the code; they are used to state properties. *)
Record st : Type := {
  push : list (list work);
  log : list msg;
  shared_max : option P;                 (* pqueue_worker.rs:41-43 *)
  q_status : qstatus;
  q_pq : pq S P;
  q_min : option P;
  q_count : nat;
  q_local_max : option P;
  workers : list wstatus;
  main : mstatus;
  best : S;
  best_cost : P;
  handed : list work;
  enqueued : list work
}.

(** pqueue_worker.rs:246-265, update_max_cost: the new local and shared bounds. *)
Definition is_full (q : pq S P) : bool := Nat.leb (max_size q) (length (queue q)).
Definition is_empty (q : pq S P) : bool := match queue q with [] => true | _ => false end.
Definition update_max_cost (q : pq S P) (local shared : option P) : option (option P * option P) :=
  if negb (is_full q) || is_empty q then Some (local, shared)
  else
    match max_cost ltb q with
    | None => None                                   (* unwrap *)
    | Some m =>
        match local with
        | Some l => if ltb m l then Some (Some m, Some m) else Some (local, shared)
        | None => Some (local, shared)
        end
    end.

(** pqueue_worker.rs:216-227, the loop of enqueue_circs: queue, smallest cost and log. *)
Fixpoint enqueue (q : pq S P) (mn : option P) (lg : list msg) (ws : list work) : option (pq S P * option P * list msg) :=
  match ws with
  | [] => Some (q, mn, lg)
  | w :: ws =>
      let is_best := match mn with None => true | Some m => ltb (ecost w) m end in
      let mn := if is_best then Some (ecost w) else mn in
      let lg := if is_best then lg ++ [NewBest (estate w) (ecost w)] else lg in
      match pq_push ltb q (estate w) (ehash w) (ecost w) with
      | None => None
      | Some (q, _) => enqueue q mn lg ws
      end
  end.

Definition set_q (s : st) (stt : qstatus) (lg : list msg) (pu : list (list work)) : st :=
  {| push := pu; log := lg; shared_max := shared_max s; q_status := stt; q_pq := q_pq s; q_min := q_min s;
     q_count := q_count s; q_local_max := q_local_max s; workers := workers s; main := main s;
     best := best s; best_cost := best_cost s; handed := handed s; enqueued := enqueued s |}.
Definition q_panic (s : st) : st := set_q s QPanic (log s) [].

(** pqueue_worker.rs:165-176 and 178-187: the queue receives a batch; an empty one ends the
    thread (200-207, last log message). 229-237: after enqueuing, the bound is updated and the
    counts are logged (always: last_progress_log is set a minute back in [new] and never again). *)
Definition q_recv (s : st) : option st :=
  match q_status s, push s with
  | QRun, [] :: _ =>
      Some (set_q s QDone (log s ++ [StateCount (q_count s) (length (seen (q_pq s))) (length (queue (q_pq s)))]) [])
  | QRun, b :: rest =>
      match enqueue (q_pq s) (q_min s) (log s) b with
      | None => Some (q_panic s)
      | Some (q, mn, lg) =>
          match update_max_cost q (q_local_max s) (shared_max s) with
          | None => Some (q_panic s)
          | Some (l, sh) =>
              Some {| push := rest;
                      log := lg ++ [StateCount (S_ (q_count s)) (length (seen q)) (length (queue q))];
                      shared_max := sh; q_status := QRun; q_pq := q; q_min := mn; q_count := S_ (q_count s);
                      q_local_max := l; workers := workers s; main := main s; best := best s;
                      best_cost := best_cost s; handed := handed s; enqueued := enqueued s ++ b |}
          end
      end
  | _, _ => None
  end.

Definition set_worker (ws : list wstatus) (i : nat) (w : wstatus) : list wstatus := firstn i ws ++ w :: skipn (S_ i) ws.

(** pqueue_worker.rs:188-194 with worker.rs:60-66: the queue, not being empty, hands its best
    entry to the waiting worker [i]. *)
Definition q_give (i : nat) (s : st) : option st :=
  match q_status s, nth_error (workers s) i with
  | QRun, Some WIdle =>
      if is_empty (q_pq s) then None
      else
        match pq_pop ltb (q_pq s) with
        | (_, None) => Some (q_panic s)                (* unwrap *)
        | (q, Some e) =>
            match update_max_cost q (q_local_max s) (shared_max s) with
            | None => Some (q_panic s)
            | Some (l, sh) =>
                Some {| push := push s; log := log s; shared_max := sh; q_status := QRun; q_pq := q; q_min := q_min s;
                        q_count := q_count s; q_local_max := l; workers := set_worker (workers s) i (WBusy e);
                        main := main s; best := best s; best_cost := best_cost s;
                        handed := handed s ++ [e]; enqueued := enqueued s |}
            end
        end
  | _, _ => None
  end.

(** worker.rs:68-91: the new circuits, given the bound that was read. *)
Definition new_circs (w : work) (mx : option P) : list work :=
  flat_map (fun r =>
    let new_cost := add_delta (ecost w) (snd r) in
    if match mx with Some m => negb (ltb new_cost m) | None => false end then []
    else match hash (fst r) with Some h => [(h, new_cost, fst r)] | None => [] end) (rw (estate w)).

Definition set_w (s : st) (i : nat) (w : wstatus) (pu : list (list work)) : st :=
  {| push := pu; log := log s; shared_max := shared_max s; q_status := q_status s; q_pq := q_pq s; q_min := q_min s;
     q_count := q_count s; q_local_max := q_local_max s; workers := set_worker (workers s) i w; main := main s;
     best := best s; best_cost := best_cost s; handed := handed s; enqueued := enqueued s |}.
Definition alive (s : st) : bool := match q_status s with QRun => true | _ => false end.

(** worker.rs:68-91: rewrite and read the bound. *)
Definition w_rewrite (i : nat) (s : st) : option st :=
  match nth_error (workers s) i with
  | Some (WBusy w) => Some (set_w s i (WReady (new_circs w (shared_max s))) (push s))
  | _ => None
  end.
(** worker.rs:93-99 and pqueue_worker.rs:82-88: sending nothing succeeds; sending to a queue that
    has ended ends the worker. *)
Definition w_send (i : nat) (s : st) : option st :=
  match nth_error (workers s) i with
  | Some (WReady []) => Some (set_w s i WIdle (push s))
  | Some (WReady b) => if alive s then Some (set_w s i WIdle (push s ++ [b])) else Some (set_w s i WDone (push s))
  | _ => None
  end.
(** worker.rs:60-66: recv fails once the queue thread has ended. *)
Definition w_stop (i : nat) (s : st) : option st :=
  match nth_error (workers s) i with
  | Some WIdle => if alive s then None else Some (set_w s i WDone (push s))
  | _ => None
  end.

Definition set_m (s : st) (m : mstatus) (b : S) (c : P) (lg : list msg) (pu : list (list work)) : st :=
  {| push := pu; log := lg; shared_max := shared_max s; q_status := q_status s; q_pq := q_pq s; q_min := q_min s;
     q_count := q_count s; q_local_max := q_local_max s; workers := workers s; main := m;
     best := b; best_cost := c; handed := handed s; enqueued := enqueued s |}.
(** pqueue_worker.rs:77-79, close: fails silently (badger.rs: [let _ =]) if the queue has ended. *)
Definition closed_push (s : st) : list (list work) := if alive s then push s ++ [[]] else push s.

Variable o : options.
(** badger.rs:281-314 (and 331-351 when draining): receive a log message. *)
Definition m_log (s : st) : option st :=
  match main s, log s with
  | (MLoop | MDrain), NewBest b c :: rest =>
      if ltb c (best_cost s) then Some (set_m s (main s) b c rest (push s))
      else Some (set_m s (main s) (best s) (best_cost s) rest (push s))
  | MLoop, StateCount _ sn _ :: rest =>
      if match max_circuit_count o with Some m => Nat.ltb m sn | None => false end
      then Some (set_m s MDrain (best s) (best_cost s) rest (closed_push s))
      else Some (set_m s MLoop (best s) (best_cost s) rest (push s))
  | MDrain, StateCount _ _ _ :: rest => Some (set_m s MDrain (best s) (best_cost s) rest (push s))
  | _, _ => None
  end.
(** badger.rs:308-312 and the end of the loop in 331: the log channel is disconnected and empty. *)
Definition m_disconnect (s : st) : option st :=
  match main s, log s with
  | MLoop, [] => if alive s then None else Some (set_m s MDrain (best s) (best_cost s) [] (closed_push s))
  | MDrain, [] => if alive s then None else Some (set_m s MJoin (best s) (best_cost s) [] (push s))
  | _, _ => None
  end.
(** badger.rs:315-326: a timeout. *)
Definition m_timeout (s : st) : option st :=
  match main s with
  | MLoop => if timeouts o then Some (set_m s MDrain (best s) (best_cost s) (log s) (closed_push s)) else None
  | _ => None
  end.
(** badger.rs:361-363: all workers have ended. *)
Definition m_join (s : st) : option st :=
  match main s with
  | MJoin =>
      if forallb (fun w => match w with WDone => true | _ => false end) (workers s)
      then Some (set_m s MDone (best s) (best_cost s) (log s) (push s)) else None
  | _ => None
  end.

Inductive action : Type :=
| QRecv | QGive (i : nat) | WRewrite (i : nat) | WSend (i : nat) | WStop (i : nat)
| MLog | MDisconnect | MTimeout | MJoined.
Definition step (a : action) (s : st) : option st :=
  match a with
  | QRecv => q_recv s
  | QGive i => q_give i s
  | WRewrite i => w_rewrite i s
  | WSend i => w_send i s
  | WStop i => w_stop i s
  | MLog => m_log s
  | MDisconnect => m_disconnect s
  | MTimeout => m_timeout s
  | MJoined => m_join s
  end.

(** badger.rs:235-278 with pqueue_worker.rs:119-160: the start. [h0] is the hash of the circuit, whose
    unwrap is taken to succeed. *)
Definition init (s0 : S) (c0 : P) (h0 : nat) (ties : nat -> nat) : st :=
  {| push := [[(h0, c0, s0)]]; log := []; shared_max := None; q_status := QRun;
     q_pq := pq_new (queue_size o) None ties; q_min := None; q_count := 0; q_local_max := None;
     workers := repeat WIdle (n_threads o); main := MLoop; best := s0; best_cost := c0; handed := []; enqueued := [] |}.
End Badger.

Arguments step {S P D}. Arguments init {S P}.
