(** Specification vocabulary for connected components of segments: relations
    only, nothing of the search. *)
From Coq Require Import List Relations.
From Verif Require Import Base Confluent_Model.
Import ListNotations.

(** [t] holds a lane confluent with a lane of [s] (at either end). *)
Definition confluent (g : geometry) (s t : nat) : Prop :=
  exists l e m ls,
    In (Some l) (g_lanes g s) /\ g_confluent g l e = Some ls /\ In m ls /\ g_segment g m = Some t.

(** The segments of the road geometry. *)
Definition in_geometry (g : geometry) (s : nat) : Prop :=
  exists segs, In (Some segs) (g_junctions g) /\ In s segs.

(** A finite road geometry: [U] holds [seed] and every segment reachable. *)
Definition closed_universe (g : geometry) (U : list nat) : Prop :=
  forall s t, In s U -> confluent g s t -> In t U.

(** Connected by any number of confluence steps. *)
Definition connected (g : geometry) : nat -> nat -> Prop := clos_refl_trans nat (confluent g).
