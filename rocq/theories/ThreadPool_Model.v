(** Model of include/maliput/utility/thread_pool.h and src/maliput/utility/thread_pool.cc.
    An interleaving semantics with explicit mutexes and condition variables.  The class is
    documented as not thread safe, so one thread, the owner, makes the calls; the workers
    are the threads created by the constructor.  Atomics are sequentially consistent.
    Tasks are opaque and terminate (a std::packaged_task stores exceptions in the future).
    Condition variables may wake up spuriously. *)
From Coq Require Import List Arith Bool.
Import ListNotations.

(** Where a worker is in DoWork(): thread_pool.cc 70-96. *)
Inductive wpc :=
| WStart        (* 72, or woken in 74: about to lock start_mutex_ *)
| WCheck        (* 73-74: holds start_mutex_, about to read is_running_ *)
| WSleepyS      (* 74: holds start_mutex_, the predicate was false *)
| WSleepS       (* 74: asleep on start_ *)
| WLoop         (* 80: about to lock tasks_mutex_ *)
| WPick         (* 81: holds tasks_mutex_ *)
| WSleepyT      (* 85: holds tasks_mutex_, read is_finished_ as false *)
| WSleepT       (* 85: asleep on available_ *)
| WWakeT        (* 85: woken, about to lock tasks_mutex_ again *)
| WBack         (* 91: holds tasks_mutex_, about to release it without a task *)
| WRun (t : nat)(* 92-94: about to run the task *)
| WExit.        (* 83: left the loop *)

(** Calls of the owner; the destructor (thread_pool.cc 42) is [Finish]. *)
Inductive call := Queue (t : nat) | Start | Finish | Cancel.

(** Where the owner is. *)
Inductive opc :=
| OIdle
| OQLock (t : nat) | OQPush (t : nat) | OQNotify   (* thread_pool.h 85, 87, 90 *)
| OSLock | OSSet | OSNotify                        (* thread_pool.cc 47, 48, 49 *)
| OFLock | OFNotify | OFWait                       (* thread_pool.cc 55, 56, 58-62 *)
| OCLock | OCClear.                                (* thread_pool.cc 66, 67 *)

Inductive holder := Owner | Worker (i : nat).

(** [gone] records the departures from the queue in order: [(t, true)] picked by a
    worker, [(t, false)] cancelled; [queued], [done] and [thrown] record the accepted
    Queue calls, the completed tasks and the calls that threw. *)
Record state := mk_state {
  tasks : list nat; running : bool; finished : bool;
  start_mutex : option holder; tasks_mutex : option holder;
  workers : list wpc; futures : bool; at_call : opc; program : list call;
  queued : list nat; gone : list (nat * bool); done : list nat; thrown : list call }.

(** std::vector / array update. *)
Fixpoint set_nth {A} (l : list A) (i : nat) (x : A) : list A :=
  match l, i with [], _ => [] | _ :: l', O => x :: l' | y :: l', S j => y :: set_nth l' j x end.

Definition with_worker (s : state) (i : nat) (w : wpc) : state :=
  mk_state (tasks s) (running s) (finished s) (start_mutex s) (tasks_mutex s) (set_nth (workers s) i w) (futures s) (at_call s) (program s) (queued s) (gone s) (done s) (thrown s).
Definition with_workers (s : state) (ws : list wpc) : state :=
  mk_state (tasks s) (running s) (finished s) (start_mutex s) (tasks_mutex s) ws (futures s) (at_call s) (program s) (queued s) (gone s) (done s) (thrown s).
Definition with_start (s : state) (h : option holder) : state :=
  mk_state (tasks s) (running s) (finished s) h (tasks_mutex s) (workers s) (futures s) (at_call s) (program s) (queued s) (gone s) (done s) (thrown s).
Definition with_lock (s : state) (h : option holder) : state :=
  mk_state (tasks s) (running s) (finished s) (start_mutex s) h (workers s) (futures s) (at_call s) (program s) (queued s) (gone s) (done s) (thrown s).
Definition with_call (s : state) (o : opc) : state :=
  mk_state (tasks s) (running s) (finished s) (start_mutex s) (tasks_mutex s) (workers s) (futures s) o (program s) (queued s) (gone s) (done s) (thrown s).
Definition with_program (s : state) (p : list call) : state :=
  mk_state (tasks s) (running s) (finished s) (start_mutex s) (tasks_mutex s) (workers s) (futures s) (at_call s) p (queued s) (gone s) (done s) (thrown s).
Definition with_running (s : state) (b : bool) : state :=
  mk_state (tasks s) b (finished s) (start_mutex s) (tasks_mutex s) (workers s) (futures s) (at_call s) (program s) (queued s) (gone s) (done s) (thrown s).
Definition with_finished (s : state) : state :=
  mk_state (tasks s) (running s) true (start_mutex s) (tasks_mutex s) (workers s) (futures s) (at_call s) (program s) (queued s) (gone s) (done s) (thrown s).
Definition without_futures (s : state) : state :=
  mk_state (tasks s) (running s) (finished s) (start_mutex s) (tasks_mutex s) (workers s) false (at_call s) (program s) (queued s) (gone s) (done s) (thrown s).
Definition throwing (s : state) (c : call) : state :=
  mk_state (tasks s) (running s) (finished s) (start_mutex s) (tasks_mutex s) (workers s) (futures s) (at_call s) (program s) (queued s) (gone s) (done s) (thrown s ++ [c]).
Definition push (s : state) (t : nat) : state :=
  mk_state (tasks s ++ [t]) (running s) (finished s) (start_mutex s) (tasks_mutex s) (workers s) (futures s) (at_call s) (program s) (queued s ++ [t]) (gone s) (done s) (thrown s).
Definition pop (s : state) (t : nat) (rest : list nat) : state :=
  mk_state rest (running s) (finished s) (start_mutex s) (tasks_mutex s) (workers s) (futures s) (at_call s) (program s) (queued s) (gone s ++ [(t, true)]) (done s) (thrown s).
Definition clear (s : state) : state :=
  mk_state [] (running s) (finished s) (start_mutex s) (tasks_mutex s) (workers s) (futures s) (at_call s) (program s) (queued s) (gone s ++ map (fun t => (t, false)) (tasks s)) (done s) (thrown s).
Definition finish_task (s : state) (t : nat) : state :=
  mk_state (tasks s) (running s) (finished s) (start_mutex s) (tasks_mutex s) (workers s) (futures s) (at_call s) (program s) (queued s) (gone s) (done s ++ [t]) (thrown s).

(** condition_variable::notify_all on start_ and on available_. *)
Definition wake_start (w : wpc) : wpc := match w with WSleepS => WStart | _ => w end.
Definition wake_tasks (w : wpc) : wpc := match w with WSleepT => WWakeT | _ => w end.

(** One step of worker [i]. *)
Inductive worker_step (i : nat) (s : state) : state -> Prop :=
| w_lock_start : nth_error (workers s) i = Some WStart -> start_mutex s = None ->
    worker_step i s (with_worker (with_start s (Some (Worker i))) i WCheck)
| w_started : nth_error (workers s) i = Some WCheck -> running s = true ->
    worker_step i s (with_worker (with_start s None) i WLoop)
| w_not_started : nth_error (workers s) i = Some WCheck -> running s = false ->
    worker_step i s (with_worker s i WSleepyS)
| w_sleep_start : nth_error (workers s) i = Some WSleepyS ->
    worker_step i s (with_worker (with_start s None) i WSleepS)
| w_lock_tasks : nth_error (workers s) i = Some WLoop -> tasks_mutex s = None ->
    worker_step i s (with_worker (with_lock s (Some (Worker i))) i WPick)
| w_exit : nth_error (workers s) i = Some WPick -> tasks s = [] -> finished s = true ->
    worker_step i s (with_worker (with_lock s None) i WExit)
| w_nothing : nth_error (workers s) i = Some WPick -> tasks s = [] -> finished s = false ->
    worker_step i s (with_worker s i WSleepyT)
| w_sleep_tasks : nth_error (workers s) i = Some WSleepyT ->
    worker_step i s (with_worker (with_lock s None) i WSleepT)
| w_take t rest : nth_error (workers s) i = Some WPick -> tasks s = t :: rest ->
    worker_step i s (with_worker (with_lock (pop s t rest) None) i (WRun t))
| w_relock : nth_error (workers s) i = Some WWakeT -> tasks_mutex s = None ->
    worker_step i s (with_worker (with_lock s (Some (Worker i))) i WBack)
| w_again : nth_error (workers s) i = Some WBack ->
    worker_step i s (with_worker (with_lock s None) i WLoop)
| w_run t : nth_error (workers s) i = Some (WRun t) ->
    worker_step i s (with_worker (finish_task s t) i WLoop).

(** One step of the owner. *)
Inductive owner_step (s : state) : state -> Prop :=
(* Queue: thread_pool.h 76-92 *)
| o_queue_throws t p : at_call s = OIdle -> program s = Queue t :: p -> finished s = true ->
    owner_step s (with_program (throwing s (Queue t)) p)
| o_queue t p : at_call s = OIdle -> program s = Queue t :: p -> finished s = false ->
    owner_step s (with_program (with_call s (OQLock t)) p)
| o_queue_lock t : at_call s = OQLock t -> tasks_mutex s = None ->
    owner_step s (with_call (with_lock s (Some Owner)) (OQPush t))
| o_queue_push t : at_call s = OQPush t ->
    owner_step s (with_call (with_lock (push s t) None) OQNotify)
| o_queue_notify i : at_call s = OQNotify -> nth_error (workers s) i = Some WSleepT ->
    owner_step s (with_call (with_worker s i WWakeT) OIdle)
| o_queue_notify_none : at_call s = OQNotify -> ~ In WSleepT (workers s) ->
    owner_step s (with_call s OIdle)
(* Start: thread_pool.cc 44-50 *)
| o_start_throws p : at_call s = OIdle -> program s = Start :: p -> running s || finished s = true ->
    owner_step s (with_program (throwing s Start) p)
| o_start p : at_call s = OIdle -> program s = Start :: p -> running s || finished s = false ->
    owner_step s (with_program (with_call s OSLock) p)
| o_start_lock : at_call s = OSLock -> start_mutex s = None ->
    owner_step s (with_call (with_start s (Some Owner)) OSSet)
| o_start_set : at_call s = OSSet ->
    owner_step s (with_call (with_running s true) OSNotify)
| o_start_notify : at_call s = OSNotify ->
    owner_step s (with_call (with_start (with_workers s (map wake_start (workers s))) None) OIdle)
(* Finish: thread_pool.cc 52-63; the futures are ready when their workers have left *)
| o_finish p : at_call s = OIdle -> program s = Finish :: p ->
    owner_step s (with_program (with_call (with_finished s) OFLock) p)
| o_finish_lock : at_call s = OFLock -> tasks_mutex s = None ->
    owner_step s (with_call (with_lock s (Some Owner)) OFNotify)
| o_finish_notify : at_call s = OFNotify ->
    owner_step s (with_call (with_lock (with_workers s (map wake_tasks (workers s))) None) OFWait)
| o_finish_return : at_call s = OFWait -> (futures s = true -> forall w, In w (workers s) -> w = WExit) ->
    owner_step s (with_call (with_running (without_futures s) false) OIdle)
(* cancel_pending: thread_pool.cc 65-68 *)
| o_cancel p : at_call s = OIdle -> program s = Cancel :: p ->
    owner_step s (with_program (with_call s OCLock) p)
| o_cancel_lock : at_call s = OCLock -> tasks_mutex s = None ->
    owner_step s (with_call (with_lock s (Some Owner)) OCClear)
| o_cancel_clear : at_call s = OCClear ->
    owner_step s (with_call (with_lock (clear s) None) OIdle).

(** Spurious wake-up of worker [i]. *)
Inductive spurious (i : nat) (s : state) : state -> Prop :=
| sp_start : nth_error (workers s) i = Some WSleepS -> spurious i s (with_worker s i WStart)
| sp_tasks : nth_error (workers s) i = Some WSleepT -> spurious i s (with_worker s i WWakeT).

(** Steps that are due to the program, and all steps. *)
Inductive proper_step (s s' : state) : Prop :=
| by_worker i : worker_step i s s' -> proper_step s s'
| by_owner : owner_step s s' -> proper_step s s'.
Inductive step (s s' : state) : Prop :=
| is_proper : proper_step s s' -> step s s'
| is_spurious i : spurious i s s' -> step s s'.

(** ThreadPool(n), thread_pool.cc 35-40: [n] workers; n = 0 throws. *)
Definition ThreadPool (n : nat) (p : list call) : option state :=
  if Nat.eqb n 0 then None else Some (mk_state [] false false None None (repeat WStart n) true OIdle p [] [] [] []).
