(** Specification vocabulary for C44 and C45. *)
From Coq Require Import List Arith Bool.
From Verif Require Import ThreadPool_Model.
Import ListNotations.

(** Executions. *)
Inductive exec (s : state) : state -> Prop :=
| exec_refl : exec s s
| exec_more s' s'' : exec s s' -> step s' s'' -> exec s s''.
(** A state of a pool of [n] threads used with the calls [p]. *)
Definition reachable (n : nat) (p : list call) (s : state) : Prop := exists s0, ThreadPool n p = Some s0 /\ exec s0 s.
(** Nothing can happen any more, except for spurious wake-ups. *)
Definition stuck (s : state) : Prop := forall s', ~ proper_step s s'.

(** Tasks taken by a worker, in order, and tasks that were cancelled. *)
Definition picked (s : state) : list nat := map fst (filter snd (gone s)).
Definition cancelled (s : state) : list nat := map fst (filter (fun x => negb (snd x)) (gone s)).
(** The owner is inside Finish(). *)
Definition in_finish (s : state) : Prop := at_call s = OFLock \/ at_call s = OFNotify \/ at_call s = OFWait.
(** Calls of a program. *)
Definition queues (p : list call) : list nat := flat_map (fun c => match c with Queue t => [t] | _ => [] end) p.
