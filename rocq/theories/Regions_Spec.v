(** Specification vocabulary for C01-C05.  Nothing here mentions the functions of
    Regions_Model; only the data members [s0], [s1], [lane_id], [s_range]. *)
From Coq Require Import List QArith Qabs.
From Verif Require Import Regions_Model.
Open Scope Q_scope.

(** What the SRange constructor and setters guarantee. *)
Definition valid (r : srange) : Prop := 0 <= s0 r /\ 0 <= s1 r.

(** [x] is a point of the undirected interval [r]. *)
Definition In_range (x : Q) (r : srange) : Prop :=
  (s0 r <= x /\ x <= s1 r) \/ (s1 r <= x /\ x <= s0 r).

Definition near (tol : Q) (r o : srange) : Prop :=
  exists x y, In_range x r /\ In_range y o /\ Qabs (x - y) <= tol.

Definition overlap_at_least (len : Q) (r o : srange) : Prop :=
  exists x y, In_range x r /\ In_range x o /\ In_range y r /\ In_range y o /\ len <= y - x.

Definition flip (r : srange) : srange := mk_srange (s1 r) (s0 r).

Definition within (tol : Q) (r o : srange) : Prop :=
  forall y, In_range y o -> exists x, In_range x r /\ Qabs (x - y) <= tol.

Definition lvalid (r : lsrange) : Prop := valid (s_range r).

Definition lnear (tol : Q) (a b : lsrange) : Prop :=
  lane_id a = lane_id b /\ near tol (s_range a) (s_range b).

Definition rnear (tol : Q) (a b : list lsrange) : Prop :=
  exists x y, In x a /\ In y b /\ lnear tol x y.

(** The position behind [to_lane] (lane id -> (distance, s)) lies on range [r]. *)
Definition on_range (to_lane : nat -> option (Q * Q)) (tol : Q) (r : lsrange) : Prop :=
  exists d s, to_lane (lane_id r) = Some (d, s) /\ d <= tol /\
    exists x, In_range x (s_range r) /\ Qabs (x - s) <= tol.

(** ToLanePosition returns coordinates within the lane, so s >= 0. *)
Definition s_nonneg (to_lane : nat -> option (Q * Q)) : Prop :=
  forall l d s, to_lane l = Some (d, s) -> 0 <= s.

(** At most one of the given ranges lies on a lane within tolerance of the position. *)
Definition decisive (to_lane : nat -> option (Q * Q)) (tol : Q) (rs : list lsrange) : Prop :=
  forall r1 r2 d1 x1 d2 x2, In r1 rs -> In r2 rs ->
    to_lane (lane_id r1) = Some (d1, x1) -> d1 <= tol ->
    to_lane (lane_id r2) = Some (d2, x2) -> d2 <= tol -> r1 = r2.
