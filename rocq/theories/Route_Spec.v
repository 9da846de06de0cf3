(** Specification vocabulary for C40, C41, C42. *)
From Coq Require Import List Arith Bool QArith Qabs.
From Verif Require Import Base Regions_Model Graph_Spec Route_Model.
Import ListNotations.
Open Scope Q_scope.

(** Range [i] of phase [p] of the route. *)
Definition range_at (r : list phase) (p i : nat) (x : lsrange) : Prop :=
  exists ph, nth_error r p = Some ph /\ nth_error (ph_ranges ph) i = Some x.

(** [q] lies on [x]'s lane and within the span of [x] widened by the tolerance. *)
Definition covers (tol : Q) (x q : lsrange) : Prop :=
  lane_id x = lane_id q /\
  forall s, s = s0 (s_range q) \/ s = s1 (s_range q) ->
    (s0 (s_range x) - tol <= s \/ s1 (s_range x) - tol <= s) /\ (s <= s0 (s_range x) + tol \/ s <= s1 (s_range x) + tol).
(** Ranges as built by their constructors. *)
Definition range_ok (x : lsrange) : Prop := 0 <= s0 (s_range x) /\ 0 <= s1 (s_range x).
Definition ranges_ok (r : list phase) : Prop := forall p i x, range_at r p i x -> range_ok x.

(** Lexicographic order of indices. *)
Definition before (a b : nat * nat) : Prop := (fst a < fst b \/ (fst a = fst b /\ snd a < snd b))%nat.
(** The first range of the route that covers [q]. *)
Definition resolves (net : network) (r : list phase) (q : lsrange) (i : nat * nat) : Prop :=
  (exists x, range_at r (fst i) (snd i) x /\ covers (tolerance net) x q) /\
  forall j x, before j i -> range_at r (fst j) (snd j) x -> ~ covers (tolerance net) x q.
(** No range of the route is covered by an earlier one. *)
Definition ranges_distinct (net : network) (r : list phase) : Prop :=
  forall p i x, range_at r p i x -> resolves net r x (p, i).

(** ** Relations *)
Definition mirrored (k : relation) : relation :=
  match k with
  | kAdjacentLeft => kAdjacentRight | kAdjacentRight => kAdjacentLeft | kLeft => kRight | kRight => kLeft
  | kSucceedingStraight => kPrecedingStraight | kSucceedingLeft => kPrecedingRight | kSucceedingRight => kPrecedingLeft
  | kPrecedingStraight => kSucceedingStraight | kPrecedingLeft => kSucceedingRight | kPrecedingRight => kSucceedingLeft
  | k => k
  end.
Definition sideways (k : relation) : Prop := k = kCoincident \/ k = kAdjacentLeft \/ k = kAdjacentRight \/ k = kLeft \/ k = kRight.
Definition succeeding (k : relation) : Prop := k = kSucceedingStraight \/ k = kSucceedingLeft \/ k = kSucceedingRight.
Definition preceding (k : relation) : Prop := k = kPrecedingStraight \/ k = kPrecedingLeft \/ k = kPrecedingRight.

(** The end of [x] and the start of [y] coincide within the linear tolerance. *)
Definition touch (net : network) (x y : lsrange) : Prop :=
  let u := inertial net (lane_id x) (mk_lpos (s1 (s_range x)) 0 0) in
  let v := inertial net (lane_id y) (mk_lpos (s0 (s_range y)) 0 0) in
  (vx v - vx u) * (vx v - vx u) + (vy v - vy u) * (vy v - vy u) + (vz v - vz u) * (vz v - vz u) <= tolerance net * tolerance net.

(** ** Lane routes over a route *)
(** To the lane on the left or right in the same phase, or on to a range of the next
    phase that starts where this one ends. *)
Definition hop (net : network) (r : list phase) (a b : nat * nat) : Prop :=
  (fst a = fst b /\ (snd b = S (snd a) \/ snd a = S (snd b))) \/
  (fst b = S (fst a) /\ exists x y, range_at r (fst a) (snd a) x /\ range_at r (fst b) (snd b) y /\ touch net x y).
(** [l] is the trail of ranges from index [a] to index [b]. *)
Definition trail (net : network) (r : list phase) (a b : nat * nat) (l : list lsrange) : Prop :=
  exists is, hd_error is = Some a /\ last is a = b /\ consecutive (hop net r) is /\
    Forall2 (fun i x => range_at r (fst i) (snd i) x) is l.
(** Some range of phase [p] starts where some range of the phase before ends. *)
Definition phase_reachable (net : network) (r : list phase) (p : nat) : Prop :=
  exists q i j x y, p = S q /\ range_at r q i x /\ range_at r p j y /\ touch net x y.

(** ** Connectivity *)
(** Coordinate-wise closeness in the inertial frame. *)
Definition close_positions (net : network) (a b : rpos) : Prop :=
  let u := inertial net (at_lane a) (at_pos a) in let v := inertial net (at_lane b) (at_pos b) in
  Qabs (vx u - vx v) <= tolerance net /\ Qabs (vy u - vy v) <= tolerance net /\ Qabs (vz u - vz v) <= tolerance net.
(** Same lane, or joined by a branch point. *)
Definition lanes_connected (net : network) (a b : nat) : Prop := a = b \/ exists e f, In (b, f) (ongoing net a e).

(** ** Positions *)
Definition point_range (p : rpos) : lsrange := mk_lsrange (at_lane p) (mk_srange (ps (at_pos p)) (ps (at_pos p))).
(** What one range offers for the query [v]: the lane's nearest position when its s lies
    in the range, otherwise the centerline at the end of the range closer in s. *)
Definition offers (net : network) (tol : Q) (v : vec) (x : lsrange) (p : lpos) (n : vec) (d : Q) : Prop :=
  exists lp near dist, nearest net (lane_id x) v = (lp, near, dist) /\
  ((covers tol x (point_range (mk_rpos (lane_id x) lp)) /\ p = lp /\ n = near /\ d = dist) \/
   (~ covers tol x (point_range (mk_rpos (lane_id x) lp)) /\ n = inertial net (lane_id x) p /\ d = distance net n v /\
    ((p = mk_lpos (s0 (s_range x)) 0 0 /\ Qabs (ps lp - s0 (s_range x)) <= Qabs (ps lp - s1 (s_range x))) \/
     (p = mk_lpos (s1 (s_range x)) 0 0 /\ Qabs (ps lp - s1 (s_range x)) < Qabs (ps lp - s0 (s_range x)))))).
(** The backend answers with s >= 0. *)
Definition nearest_ok (net : network) (v : vec) : Prop := forall l lp n d, nearest net l v = (lp, n, d) -> 0 <= ps lp.
Definition sq_dist (u v : vec) : Q := (vx u - vx v) * (vx u - vx v) + (vy u - vy v) * (vy u - vy v) + (vz u - vz v) * (vz u - vz v).
