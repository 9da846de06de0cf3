(** Specification vocabulary for C43. *)
From Coq Require Import List Arith Bool QArith Qabs.
From Verif Require Import Base Regions_Model Graph_Model Graph_Spec Route_Model Route_Spec Router_Model.
Import ListNotations.
Open Scope Q_scope.

(** Length of a range. *)
Definition span (x : lsrange) : Q := Qabs (s1 (s_range x) - s0 (s_range x)).
(** [c] is the length of the shortest range of the phase. *)
Definition shortest (p : phase) (c : Q) : Prop :=
  (exists x, In x (ph_ranges p) /\ c == span x) /\ forall x, In x (ph_ranges p) -> c <= span x.
(** Every range is as long as a double can say; phases have ranges. *)
Definition measurable (r : list phase) : Prop :=
  forall p, In p r -> ph_ranges p <> [] /\ forall x, In x (ph_ranges p) -> span x <= dbl_max.
(** Lane lengths are non-negative doubles. *)
Definition lengths_ok (m : roads) : Prop := forall l x, len (net m) l = Some x -> 0 <= x <= dbl_max.
Definition total (l : list Q) : Q := fold_right Qplus 0 l.

(** The position [s] and then an end position of every phase, always on the lane of the
    start position and followed by the start position of the next phase that is joined
    with it: the route can be driven without a lane switch. *)
Definition joined (net : network) (e s : rpos) : Prop := close_positions net e s /\ lanes_connected net (at_lane e) (at_lane s).
Inductive stays (net : network) : rpos -> list phase -> Prop :=
| stays_last s p e : In e (ph_ends p) -> at_lane e = at_lane s -> stays net s [p]
| stays_more s p e q rest s' : In e (ph_ends p) -> at_lane e = at_lane s -> In s' (ph_starts q) -> joined net e s' ->
    stays net s' (q :: rest) -> stays net s (p :: q :: rest).
Definition no_lane_switch (net : network) (r : list phase) : Prop :=
  exists p r' s, r = p :: r' /\ hd_error (ph_starts p) = Some s /\ stays net s r.
(** Phases as ComputeRoutes builds them: an end position per lane, one start of the route and one end. *)
Definition one_per_lane (p : phase) : Prop := NoDup (map at_lane (ph_ends p)).
Definition single_goal (r : list phase) : Prop := forall p, In p r -> last r p = p -> exists e, ph_ends p = [e].
(** The end positions of a phase and the start positions of the next are listed in the
    same order: the i-th is joined with the i-th and with no other. *)
Definition listed_alike (net : network) (p q : phase) : Prop :=
  length (ph_ends p) = length (ph_starts q) /\
  forall i j e s, nth_error (ph_ends p) i = Some e -> nth_error (ph_starts q) j = Some s -> (joined net e s <-> i = j).

(** What the constraints ask of a route. *)
Definition within_limits (c : constraints) (r : list phase) : Prop :=
  (forall m, max_phase c = Some m -> forall p k, In p r -> shortest p k -> k <= m) /\
  (forall m ks, max_route c = Some m -> Forall2 shortest r ks -> total ks <= m).
Definition satisfies (net : network) (c : constraints) (r : list phase) : Prop :=
  within_limits c r /\ (allow_switch c = false -> no_lane_switch net r).

Definition limits_consistent (c : constraints) : Prop :=
  (forall q, max_phase c = Some q -> 0 <= q) /\ (forall q, max_route c = Some q -> 0 <= q) /\
  (forall p q, max_phase c = Some p -> max_route c = Some q -> p <= q).
(** [l] lists the members of [all] with [P], in their order. *)
Inductive filtered {A} (P : A -> Prop) : list A -> list A -> Prop :=
| filtered_nil : filtered P [] []
| filtered_keep x l all : P x -> filtered P l all -> filtered P (x :: l) (x :: all)
| filtered_drop x l all : ~ P x -> filtered P l all -> filtered P l (x :: all).
