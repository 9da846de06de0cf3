(** Model of dependency tracking and cached evaluation in a (leaf) Context:
    src/maliput/drake/systems/framework/dependency_tracker.{h,cc}, cache.{h,cc},
    cache_entry.{h,cc}, context_base.h.
    Trackers are numbered by their tickets, cache entries by their cache index.  Left out:
    descriptions, type checks of the values, assertions of debug builds, nested contexts.
    A recursion that runs out of fuel (that does not end in C++) is [UB]. *)
From Coq Require Import List Bool Arith ZArith.
From Verif Require Import Base Maps.
Import ListNotations.

(** DependencyTracker: members, dependency_tracker.h 362-386.  [cached]: the associated cache
    entry, None for the dummy. *)
Record tracker := mk_tracker {
  prereqs : list nat; subs : list nat; cached : option nat; last_event : Z;
  n_value : nat; n_prereq : nat; n_ignored : nat; n_sent : nat }.
(** A new tracker, dependency_tracker.h 300-311. *)
Definition new_tracker (c : option nat) : tracker := mk_tracker [] [] c (-1) 0 0 0 0.
(** DependencyGraph: graph_, without gaps in the numbering, dependency_tracker.h 412-531. *)
Record graph := mk_graph { trackers : nat -> tracker; size : nat }.
Definition empty_graph : graph := mk_graph (fun _ => new_tracker None) 0.
Definition at_tracker (x : nat) (f : tracker -> tracker) (g : graph) : graph := mk_graph (upd (trackers g) x (f (trackers g x))) (size g).

(** CreateNewDependencyTracker(description, cache_value), dependency_tracker.h 444-460. *)
Definition CreateNewDependencyTracker (c : option nat) (g : graph) : graph * nat :=
  (mk_graph (upd (trackers g) (size g) (new_tracker c)) (S (size g)), size g).

Definition set_prereqs (l : list nat) (t : tracker) : tracker := mk_tracker l (subs t) (cached t) (last_event t) (n_value t) (n_prereq t) (n_ignored t) (n_sent t).
Definition set_subs (l : list nat) (t : tracker) : tracker := mk_tracker (prereqs t) l (cached t) (last_event t) (n_value t) (n_prereq t) (n_ignored t) (n_sent t).
(** SubscribeToPrerequisite and AddDownstreamSubscriber, dependency_tracker.cc 80-100. *)
Definition SubscribeToPrerequisite (x p : nat) (g : graph) : graph :=
  at_tracker p (fun t => set_subs (subs t ++ [x]) t) (at_tracker x (fun t => set_prereqs (prereqs t ++ [p]) t) g).
(** Remove, dependency_tracker.cc 111-116: the first occurrence; fails if there is none. *)
Fixpoint Remove (v : nat) (l : list nat) : option (list nat) :=
  match l with
  | [] => None
  | x :: l' => if Nat.eqb x v then Some l' else match Remove v l' with Some l'' => Some (x :: l'') | None => None end
  end.
(** UnsubscribeFromPrerequisite and RemoveDownstreamSubscriber, dependency_tracker.cc 120-140. *)
Definition UnsubscribeFromPrerequisite (x p : nat) (g : graph) : outcome graph :=
  match Remove p (prereqs (trackers g x)) with
  | None => Throw
  | Some l =>
      let g1 := at_tracker x (set_prereqs l) g in
      match Remove x (subs (trackers g1 p)) with None => Throw | Some m => Ok (at_tracker p (set_subs m) g1) end
  end.

(** CacheEntryValue, cache.h 579-601: value, serial number, the two flags. *)
Section Values.
Context {V : Type}.
Record entry := mk_entry { value : V; serial : nat; out_of_date : bool; disabled : bool }.
(** What a context holds: the dependency graph, the cache, is_cache_frozen_, the values of
    the sources (time, states, parameters, ...) and current_change_event_. *)
Record context := mk_context { deps : graph; cache : nat -> entry; frozen : bool; sources : nat -> V; current_event : Z }.
Definition with_deps (g : graph) (s : context) : context := mk_context g (cache s) (frozen s) (sources s) (current_event s).
Definition with_cache (c : nat -> entry) (s : context) : context := mk_context (deps s) c (frozen s) (sources s) (current_event s).
Definition at_entry (e : nat) (f : entry -> entry) (s : context) : context := with_cache (upd (cache s) e (f (cache s e))) s.
(** mark_out_of_date and mark_up_to_date, cache.h 351-366. *)
Definition mark_out_of_date (c : entry) : entry := mk_entry (value c) (serial c) true (disabled c).
Definition mark_up_to_date (c : entry) : entry := mk_entry (value c) (serial c) false (disabled c).
(** needs_recomputation, cache.h 330-333. *)
Definition needs_recomputation (c : entry) : bool := out_of_date c || disabled c.
Definition bump_serial (c : entry) : entry := mk_entry (value c) (S (serial c)) (out_of_date c) (disabled c).
Definition set_value (v : V) (c : entry) : entry := mk_entry v (serial c) (out_of_date c) (disabled c).
Definition set_disabled (b : bool) (c : entry) : entry := mk_entry (value c) (serial c) (out_of_date c) b.

(** The counters and last_change_event_ of a tracker. *)
Definition note_value (t : tracker) : tracker := mk_tracker (prereqs t) (subs t) (cached t) (last_event t) (S (n_value t)) (n_prereq t) (n_ignored t) (n_sent t).
Definition note_prereq (t : tracker) : tracker := mk_tracker (prereqs t) (subs t) (cached t) (last_event t) (n_value t) (S (n_prereq t)) (n_ignored t) (n_sent t).
Definition note_ignored (t : tracker) : tracker := mk_tracker (prereqs t) (subs t) (cached t) (last_event t) (n_value t) (n_prereq t) (S (n_ignored t)) (n_sent t).
Definition note_sent (k : nat) (t : tracker) : tracker := mk_tracker (prereqs t) (subs t) (cached t) (last_event t) (n_value t) (n_prereq t) (n_ignored t) (n_sent t + k).
Definition set_event (ev : Z) (t : tracker) : tracker := mk_tracker (prereqs t) (subs t) (cached t) ev (n_value t) (n_prereq t) (n_ignored t) (n_sent t).
Definition on_tracker (x : nat) (f : tracker -> tracker) (s : context) : context := with_deps (at_tracker x f (deps s)) s.
Definition tracker_of (s : context) (x : nat) : tracker := trackers (deps s) x.
(** cache_value_->mark_out_of_date(), on the dummy for trackers without an entry. *)
Definition invalidate (x : nat) (s : context) : context :=
  match cached (tracker_of s x) with Some e => at_entry e mark_out_of_date s | None => s end.

(** for (subscriber : subscribers_) ... *)
Fixpoint each (f : context -> nat -> outcome context) (l : list nat) (s : context) : outcome context :=
  match l with [] => Ok s | y :: l' => obind (f s y) (each f l') end.
(** NotePrerequisiteChange and NotifySubscribers, dependency_tracker.cc 40-74. *)
Fixpoint NotePrerequisiteChange (fuel : nat) (ev : Z) (s : context) (x : nat) : outcome context :=
  match fuel with
  | O => UB
  | S fuel' =>
      let s1 := on_tracker x note_prereq s in
      if Z.eqb (last_event (tracker_of s1 x)) ev then Ok (on_tracker x note_ignored s1)
      else
        let s2 := invalidate x (on_tracker x (set_event ev) s1) in
        obind (each (NotePrerequisiteChange fuel' ev) (subs (tracker_of s2 x)) s2) (fun s3 =>
        Ok (on_tracker x (note_sent (length (subs (tracker_of s2 x)))) s3))
  end.
(** NoteValueChange, dependency_tracker.cc 23-35.  The fuel is the depth of the recursion:
    every nested call but the last is for a tracker not yet notified. *)
Definition NoteValueChange (ev : Z) (s : context) (x : nat) : outcome context :=
  let s1 := on_tracker x note_value s in
  if Z.eqb (last_event (tracker_of s1 x)) ev then Ok (on_tracker x note_ignored s1)
  else
    let s2 := on_tracker x (set_event ev) s1 in
    obind (each (NotePrerequisiteChange (S (size (deps s))) ev) (subs (tracker_of s2 x)) s2) (fun s3 =>
    Ok (on_tracker x (note_sent (length (subs (tracker_of s2 x)))) s3)).

(** What a calculator (CalcCallback) may do with the context and the value object it is
    given: read sources, evaluate other entries, write the value, throw, return. *)
Inductive prog :=
| Return (v : V)
| Raise
| Write (v : V) (k : prog)
| ReadSource (i : nat) (k : V -> prog)
| EvalEntry (e : nat) (k : V -> prog).
Variable calc : nat -> prog.

(** CacheEntry::Calc for the entry [e]; [ev] evaluates another entry.  The result is the
    context and whether the call returned (true) or threw (false). *)
Fixpoint run (ev : context -> nat -> outcome (context * bool)) (e : nat) (p : prog) (s : context) : outcome (context * bool) :=
  match p with
  | Return v => Ok (at_entry e (set_value v) s, true)
  | Raise => Ok (s, false)
  | Write v k => run ev e k (at_entry e (set_value v) s)
  | ReadSource i k => run ev e (k (sources s i)) s
  | EvalEntry e' k => obind (ev s e') (fun r => if snd r then run ev e (k (value (cache (fst r) e'))) (fst r) else Ok (fst r, false))
  end.
(** EvalAbstract and UpdateValue, cache_entry.h 161-165 and 301-308, with
    GetMutableAbstractValueOrThrowHelper, cache.h 510-516. *)
Fixpoint EvalAbstract (fuel : nat) (s : context) (e : nat) : outcome (context * bool) :=
  match fuel with
  | O => UB
  | S fuel' =>
      if needs_recomputation (cache s e) then
        if frozen s then Ok (s, false)
        else
          obind (run (EvalAbstract fuel') e (calc e) (at_entry e bump_serial s)) (fun r =>
          if snd r then Ok (at_entry e mark_up_to_date (fst r), true) else Ok (fst r, false))
      else Ok (s, true)
  end.

(** ** The calls a user makes *)
Inductive call :=
| Change (l : list (nat * V)) (** sources set under one change event, context_base.h 215-226 and 295-382 *)
| Evaluate (e : nat)
| DisableEntry (e : nat) | EnableEntry (e : nat) (** cache_entry.h 222-232 *)
| DisableCaching | EnableCaching | SetAllCacheEntriesOutOfDate (** cache.cc 98-111 *)
| FreezeCache | UnfreezeCache (** cache.h 705-710 *)
| Clone. (** context_base.cc 11-30: the calls that follow are made on the clone *)
Definition map_cache (f : entry -> entry) (s : context) : context := with_cache (fun e => f (cache s e)) s.
Definition set_source (i : nat) (v : V) (s : context) : context := mk_context (deps s) (cache s) (frozen s) (upd (sources s) i v) (current_event s).
Definition set_frozen (b : bool) (s : context) : context := mk_context (deps s) (cache s) b (sources s) (current_event s).
(** start_new_change_event, context_base.h 215-226. *)
Definition start_new_change_event (s : context) : context := mk_context (deps s) (cache s) (frozen s) (sources s) (current_event s + 1)%Z.
(** DependencyTracker::CloneWithoutPointers and RepairTrackerPointers, dependency_tracker.h
    315-323, dependency_tracker.cc 181-218: all but last_change_event_ and the counters. *)
Definition clone_tracker (t : tracker) : tracker := mk_tracker (prereqs t) (subs t) (cached t) (-1) 0 0 0 0.
Definition clone (s : context) : context := with_deps (mk_graph (fun x => clone_tracker (trackers (deps s) x)) (size (deps s))) s.
(** [ticket i]: the tracker of the source [i]. *)
Variable ticket : nat -> nat.
Fixpoint change (ev : Z) (l : list (nat * V)) (s : context) : outcome context :=
  match l with
  | [] => Ok s
  | (i, v) :: l' => obind (NoteValueChange ev s (ticket i)) (fun s' => change ev l' (set_source i v s'))
  end.
Definition do_call (fuel : nat) (c : call) (s : context) : outcome (context * bool) :=
  match c with
  | Change l => let s1 := start_new_change_event s in omap (fun s' => (s', true)) (change (current_event s1) l s1)
  | Evaluate e => EvalAbstract fuel s e
  | DisableEntry e => Ok (at_entry e (set_disabled true) s, true)
  | EnableEntry e => Ok (at_entry e (set_disabled false) s, true)
  | DisableCaching => Ok (map_cache (set_disabled true) s, true)
  | EnableCaching => Ok (map_cache (set_disabled false) s, true)
  | SetAllCacheEntriesOutOfDate => Ok (map_cache mark_out_of_date s, true)
  | FreezeCache => Ok (set_frozen true s, true)
  | UnfreezeCache => Ok (set_frozen false s, true)
  | Clone => Ok (clone s, true)
  end.
(** A history of calls; exceptions are caught by the caller. *)
Fixpoint do_calls (fuel : nat) (cs : list call) (s : context) : outcome context :=
  match cs with [] => Ok s | c :: cs' => obind (do_call fuel c s) (fun r => do_calls fuel cs' (fst r)) end.
End Values.
Arguments entry V : clear implicits.
Arguments context V : clear implicits.
Arguments prog V : clear implicits.
Arguments call V : clear implicits.
