(** Model of Rotation and InertialPosition::Distance, include/maliput/api/lane_data.h 160-240 and
    src/maliput/api/lane_data.cc 59-93.  Numbers are exact reals (M_PI is pi); the same functions
    in double precision: LaneDataFloat_Model. *)
From Coq Require Import Reals.
From Verif Require Import Base Matrix_Model Rotation_Model.
Local Open Scope R_scope.

(** A Rotation is its quaternion_.  Rotation(), lane_data.h 164. *)
Definition rot_default : quat := qidentity.
(** FromQuat 168, set_quat 186. *)
Definition from_quat (q : quat) : quat := qnormalized q.
(** FromRpy, 173-180. *)
Definition from_rpy (a : rpy) : quat := from_quat (to_quaternion a).
(** Apply, lane_data.cc 63-65. *)
Definition apply (r : quat) (p : vec3) : vec3 := transform_vector r p.
(** matrix, 72. *)
Definition rot_matrix (r : quat) : mat := to_rotation_matrix r.
(** rpy, lane_data.h 193. *)
Definition rot_rpy (r : quat) : rpy := set_from_quaternion r.
(** Reverse, lane_data.cc 74-76. *)
Definition reverse (r : quat) : quat := from_quat (qmul r (quat_angle_axis PI (V3 0 0 1))).
(** Rotation::Distance, 78-93. *)
Definition rot_distance (a b : quat) : R :=
  let angle := fun v => acos (vdot (apply a v) (apply b v)) in
  let ds := angle (V3 1 0 0) in let dr := angle (V3 0 1 0) in let dh := angle (V3 0 0 1) in
  sqrt (ds * ds + dr * dr + dh * dh).
(** InertialPosition::Distance, 59-61. *)
Definition pos_distance (a b : vec3) : R := vnorm (vsub a b).
