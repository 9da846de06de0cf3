(** Specification vocabulary for C34. *)
From Coq Require Import List QArith Bool Arith.
From Verif Require Import Base Regions_Model Regions_Spec Phases_Model Phases_Spec Intersections_Model.
Import ListNotations.

(** The first intersection with the id in a list of added pointers. *)
Definition first_added (h : list (option inter)) (id : nat) (i : inter) : Prop :=
  exists h1 h2, h = h1 ++ Some i :: h2 /\ i_id i = id /\ forall j, In (Some j) h1 -> i_id j <> id.
(** No id is added twice. *)
Definition ids_once (h : list (option inter)) : Prop :=
  forall h1 i h2, h = h1 ++ Some i :: h2 -> forall j, In (Some j) h1 -> i_id j <> i_id i.

(** What an intersection includes at its current phase. *)
Definition at_phase (current : inter -> option nat) (i : inter) (p : phase) : Prop :=
  exists id, current i = Some id /\ In (id, p) (rg_phases (i_ring i)).
Definition shows_light (current : inter -> option nat) (light_of : nat -> nat) (tl : nat) (i : inter) : Prop :=
  exists p bs b, at_phase current i p /\ ph_bulbs p = Some bs /\ In b (keys bs) /\ light_of b = tl.
Definition governs_rule (current : inter -> option nat) (r : nat) (i : inter) : Prop :=
  exists p, at_phase current i p /\ In r (keys (ph_disc p)).
Definition governs_row (current : inter -> option nat) (r : nat) (i : inter) : Prop :=
  exists p, at_phase current i p /\ In r (keys (ph_row p)).
(** The current phase, if any, is one of the ring's. *)
Definition phase_known (current : inter -> option nat) (i : inter) : Prop :=
  forall id, current i = Some id -> has_phase (i_ring i) id.

(** What a search over intersections [l] must return for a key predicate [P]. *)
Definition search_result (l : list inter) (P : inter -> Prop) (r : option inter) : Prop :=
  match r with Some i => In i l /\ P i | None => forall i, In i l -> ~ P i end.
