(** Specification vocabulary for C51 and C52. *)
From Coq Require Import List Bool Arith ZArith.
From Verif Require Import Base Tracker_Model.
Import ListNotations.

(** [y] depends, directly or through others, on [x]. *)
Inductive downstream (g : graph) : nat -> nat -> Prop :=
| down_one x y : In y (subs (trackers g x)) -> downstream g x y
| down_more x y z : In y (subs (trackers g x)) -> downstream g y z -> downstream g x z.
(** Subscribers are trackers of the graph. *)
Definition in_range (g : graph) : Prop := forall x y, In y (subs (trackers g x)) -> y < size g.
(** Nothing but change events and counters differs. *)
Definition same_graph (g g' : graph) : Prop := size g' = size g /\ forall x, prereqs (trackers g' x) = prereqs (trackers g x) /\ subs (trackers g' x) = subs (trackers g x) /\ cached (trackers g' x) = cached (trackers g x).

Section Values.
Context {V : Type}.
Variable calc : nat -> prog V.
Variable src : nat -> V.
(** The value a calculator gives, everything recomputed from the sources. *)
Inductive gives : prog V -> V -> Prop :=
| gives_return v : gives (Return v) v
| gives_write w k v : gives k v -> gives (Write w k) v
| gives_read i k v : gives (k (src i)) v -> gives (ReadSource i k) v
| gives_eval e k w v : gives (calc e) w -> gives (k w) v -> gives (EvalEntry e k) v.
(** The calculation, everything recomputed, ends with an exception. *)
Inductive fails : prog V -> Prop :=
| fails_raise : fails Raise
| fails_write w k : fails k -> fails (Write w k)
| fails_read i k : fails (k (src i)) -> fails (ReadSource i k)
| fails_eval e k : fails (calc e) -> fails (EvalEntry e k)
| fails_later e k w : gives (calc e) w -> fails (k w) -> fails (EvalEntry e k).
End Values.

Section Declared.
Context {V : Type}.
(** What a calculator may read and evaluate itself, whatever values it gets. *)
Inductive may_read : prog V -> nat -> Prop :=
| read_here i k : may_read (ReadSource i k) i
| read_after i k v j : may_read (k v) j -> may_read (ReadSource i k) j
| read_write v k j : may_read k j -> may_read (Write v k) j
| read_eval e k v j : may_read (k v) j -> may_read (EvalEntry e k) j.
Inductive may_eval : prog V -> nat -> Prop :=
| eval_here e k : may_eval (EvalEntry e k) e
| eval_after e k v j : may_eval (k v) j -> may_eval (EvalEntry e k) j
| eval_write v k j : may_eval k j -> may_eval (Write v k) j
| eval_read i k v j : may_eval (k v) j -> may_eval (ReadSource i k) j.
(** [ne] entries and [ns] sources with their trackers.  Prerequisites are declared
    completely: an entry's tracker is downstream of the tracker of every source it may read
    and of every entry it may evaluate; sources have trackers without a cache entry. *)
Definition declared (calc : nat -> prog V) (ne ns : nat) (ticket eticket : nat -> nat) (g : graph) : Prop :=
  in_range g /\ (forall i, i < ns -> ticket i < size g /\ cached (trackers g (ticket i)) = None) /\ (forall e, e < ne -> cached (trackers g (eticket e)) = Some e) /\
  (forall e i, e < ne -> may_read (calc e) i -> i < ns /\ downstream g (ticket i) (eticket e)) /\
  (forall e e', e < ne -> may_eval (calc e) e' -> e' < ne /\ downstream g (eticket e') (eticket e)).
(** No entry evaluates itself through others. *)
Definition acyclic (calc : nat -> prog V) (ne : nat) (rank : nat -> nat) : Prop := forall e e', e < ne -> may_eval (calc e) e' -> rank e' < rank e.
(** Calls about existing sources and entries. *)
Definition good_call (ne ns : nat) (c : call V) : Prop :=
  match c with Change l => Forall (fun p => fst p < ns) l | Evaluate e | DisableEntry e | EnableEntry e => e < ne | _ => True end.
(** A fresh context. *)
Definition fresh (s : context V) : Prop := (forall e, out_of_date (cache s e) = true /\ disabled (cache s e) = false) /\ (0 <= current_event s)%Z /\ forall x, (last_event (trackers (deps s) x) <= current_event s)%Z.
(** The sources after the calls of a history. *)
Definition sources_after (cs : list (call V)) (src : nat -> V) : nat -> V :=
  fold_left (fun src c => match c with Change l => fold_left (fun src p i => if Nat.eqb i (fst p) then snd p else src i) l src | _ => src end) cs src.
End Declared.

(** Each subscription is listed at both ends, equally often. *)
Definition mirrored (g : graph) : Prop := forall x p, count_occ Nat.eq_dec (prereqs (trackers g x)) p = count_occ Nat.eq_dec (subs (trackers g p)) x.
(** The graphs the functions build. *)
Inductive built : graph -> Prop :=
| built_empty : built empty_graph
| built_create c g : built g -> built (fst (CreateNewDependencyTracker c g))
| built_subscribe x p g : x < size g -> p < size g -> built g -> built (SubscribeToPrerequisite x p g)
| built_unsubscribe x p g g' : built g -> UnsubscribeFromPrerequisite x p g = Ok g' -> built g'.
