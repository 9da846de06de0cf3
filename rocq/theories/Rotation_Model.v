(** Models of include/maliput/math/quaternion.h, src/maliput/math/quaternion.cc,
    src/maliput/math/roll_pitch_yaw.cc and the parts of vector.cc they use.  Numbers are exact
    reals: rounding is not modelled, and [None] stands for a result with a NaN or infinite
    coefficient where the code would divide by zero or take the root of a negative number. *)
From Coq Require Import Reals Arith Bool.
From Verif Require Import Base Matrix_Model.
Local Open Scope R_scope.

(** Vector3, vector.h; +, -, * and / by a number: vector.cc 180-219. *)
Record vec3 : Type := V3 { vx : R; vy : R; vz : R }.
Definition vadd (a b : vec3) : vec3 := V3 (vx a + vx b) (vy a + vy b) (vz a + vz b).
Definition vsub (a b : vec3) : vec3 := V3 (vx a - vx b) (vy a - vy b) (vz a - vz b).
Definition vscale (k : R) (a : vec3) : vec3 := V3 (vx a * k) (vy a * k) (vz a * k).
(** dot, norm, vector.cc 107-115. *)
Definition vdot (a b : vec3) : R := vx b * vx a + vy b * vy a + vz b * vz a.
Definition vnorm (a : vec3) : R := sqrt (vx a * vx a + vy a * vy a + vz a * vz a).
(** normalized, 123-126: NaN for the zero vector. *)
Definition vnormalized (a : vec3) : option vec3 :=
  if Req_EM_T (vnorm a) 0 then None else Some (V3 (vx a / vnorm a) (vy a / vnorm a) (vz a / vnorm a)).
(** Vector3::cross, 255-257. *)
Definition vcross (a v : vec3) : vec3 :=
  V3 (vy a * vz v - vz a * vy v) (vz a * vx v - vx a * vz v) (vx a * vy v - vy a * vx v).
(** Matrix3 from its rows, matrix.cc 51-70. *)
Definition mat3 (a b c d e f g h i : R) : mat := fun r col =>
  match r, col with
  | O, O => a | O, S O => b | O, _ => c
  | S O, O => d | S O, S O => e | S O, _ => f
  | _, O => g | _, S O => h | _, _ => i
  end.
(** operator*(Matrix3, Vector3), matrix.cc 275-283. *)
Definition mat_vec (m : mat) (v : vec3) : vec3 :=
  V3 (m 0%nat 0%nat * vx v + m 0%nat 1%nat * vy v + m 0%nat 2%nat * vz v)
     (m 1%nat 0%nat * vx v + m 1%nat 1%nat * vy v + m 1%nat 2%nat * vz v)
     (m 2%nat 0%nat * vx v + m 2%nat 1%nat * vy v + m 2%nat 2%nat * vz v).

(** Quaternion, quaternion.h 606-800; kTolerance, 608. *)
Record quat : Type := Qn { qw : R; qx : R; qy : R; qz : R }.
Definition qtol : R := 1 / 10 ^ 15.
Definition qidentity : quat := Qn 1 0 0 0.
(** squared_norm, norm: quaternion.h 686-689. *)
Definition squared_norm (q : quat) : R := qx q * qx q + qy q * qy q + qz q * qz q + qw q * qw q.
Definition qnorm (q : quat) : R := sqrt (squared_norm q).
(** normalize, normalized: quaternion.h 695-714. *)
Definition qnormalized (q : quat) : quat :=
  let s := qnorm q in
  if Rlt_dec s qtol then qidentity else Qn (qw q / s) (qx q / s) (qy q / s) (qz q / s).
(** dot, 718; vec, 660; conjugate, 780. *)
Definition qdot (a b : quat) : R := qw b * qw a + qx b * qx a + qy b * qy a + qz b * qz a.
Definition qvec (q : quat) : vec3 := V3 (qx q) (qy q) (qz q).
Definition conjugate (q : quat) : quat := Qn (qw q) (- qx q) (- qy q) (- qz q).
(** Quaternion(angle, axis), quaternion.cc 600-618. *)
Definition quat_angle_axis (angle : R) (axis : vec3) : quat :=
  let n := vnorm axis in
  qnormalized
    (if Rlt_dec n qtol then qidentity
     else let h := angle * / 2 in let l := sin h / n in Qn (cos h) (vx axis * l) (vy axis * l) (vz axis * l)).
(** Quaternion(rotation_matrix), 620-647.  The square roots must be positive: otherwise None. *)
Definition root (x : R) : option R := if Rle_dec x 0 then None else Some (sqrt x).
Definition quat_of_matrix (m : mat) : option quat :=
  let m00 := m 0%nat 0%nat in let m01 := m 0%nat 1%nat in let m02 := m 0%nat 2%nat in
  let m10 := m 1%nat 0%nat in let m11 := m 1%nat 1%nat in let m12 := m 1%nat 2%nat in
  let m20 := m 2%nat 0%nat in let m21 := m 2%nat 1%nat in let m22 := m 2%nat 2%nat in
  let trace := m00 + m11 + m22 in
  if Rlt_dec qtol trace then
    match root (1 + trace) with
    | None => None
    | Some u => let w := u / 2 in let s := 1 / (4 * w) in Some (Qn w ((m21 - m12) * s) ((m02 - m20) * s) ((m10 - m01) * s))
    end
  else if (if Rlt_dec m11 m00 then if Rlt_dec m22 m00 then true else false else false) then
    match root (1 + m00 - m11 - m22) with
    | None => None
    | Some u => let x := u / 2 in let s := 1 / (4 * x) in Some (Qn ((m21 - m12) * s) x ((m10 + m01) * s) ((m02 + m20) * s))
    end
  else if Rlt_dec m22 m11 then
    match root (1 - m00 + m11 - m22) with
    | None => None
    | Some u => let y := u / 2 in let s := 1 / (4 * y) in Some (Qn ((m02 - m20) * s) ((m01 + m10) * s) y ((m12 + m21) * s))
    end
  else
    match root (1 - m00 - m11 + m22) with
    | None => None
    | Some u => let z := u / 2 in let s := 1 / (4 * z) in Some (Qn ((m10 - m01) * s) ((m02 + m20) * s) ((m12 + m21) * s) z)
    end.
(** operator*, 742-745. *)
Definition qmul (p q : quat) : quat :=
  Qn (qw p * qw q - qx p * qx q - qy p * qy q - qz p * qz q)
     (qw p * qx q + qx p * qw q + qy p * qz q - qz p * qy q)
     (qw p * qy q + qy p * qw q + qz p * qx q - qx p * qz q)
     (qw p * qz q + qz p * qw q + qx p * qy q - qy p * qx q).
(** std::atan2, as the C++ standard defines it on finite arguments (signed zeros aside). *)
Definition atan2 (y x : R) : R :=
  if Rlt_dec 0 x then atan (y / x)
  else if Rlt_dec x 0 then (if Rle_dec 0 y then atan (y / x) + PI else atan (y / x) - PI)
  else if Rlt_dec 0 y then PI / 2 else if Rlt_dec y 0 then - (PI / 2) else 0.
(** AngularDistance, 657-660. *)
Definition angular_distance (p q : quat) : R :=
  let d := qmul p (conjugate q) in 2 * atan2 (vnorm (qvec d)) (Rabs (qw d)).
(** ToRotationMatrix, 662-689. *)
Definition to_rotation_matrix (q0 : quat) : mat :=
  let q := qnormalized q0 in
  let tx := 2 * qx q in let ty := 2 * qy q in let tz := 2 * qz q in
  let twx := tx * qw q in let twy := ty * qw q in let twz := tz * qw q in
  let txx := tx * qx q in let txy := ty * qx q in let txz := tz * qx q in
  let tyy := ty * qy q in let tyz := tz * qy q in let tzz := tz * qz q in
  mat3 (1 - (tyy + tzz)) (txy - twz) (txz + twy)
       (txy + twz) (1 - (txx + tzz)) (tyz - twx)
       (txz - twy) (tyz + twx) (1 - (txx + tyy)).
(** SetFromTwoVectors, 691-740, behind FromTwoVectors, 651-655.  A zero vector makes the
    quotient a NaN, and the comparison false. *)
Definition other_axis (a : vec3) : vec3 :=
  if Rlt_dec (Rabs (vx a)) (Rabs (vy a)) then
    if Rlt_dec (Rabs (vx a)) (Rabs (vz a)) then V3 1 0 0 else V3 0 0 1
  else if Rlt_dec (vy a) (vz a) then V3 0 1 0 else V3 0 0 1.
Definition from_two_vectors (a b : vec3) : option quat :=
  let cos_theta := vdot a b in
  let k := sqrt (vnorm a * vnorm a * vnorm b * vnorm b) in
  let opposite := if Req_EM_T k 0 then false else if Rlt_dec (Rabs (cos_theta / k + 1)) qtol then true else false in
  if opposite then
    match vnormalized (vcross a (other_axis a)) with
    | None => None
    | Some u => Some (Qn 0 (vx u) (vy u) (vz u))
    end
  else let u := vcross a b in Some (qnormalized (Qn (cos_theta + k) (vx u) (vy u) (vz u))).
(** Inverse, 756-759. *)
Definition qinverse (q : quat) : quat :=
  let n := squared_norm q in
  if Rlt_dec qtol n then Qn (qw q / n) (- qx q / n) (- qy q / n) (- qz q / n) else Qn 0 0 0 0.
(** Slerp, 761-782. *)
Definition slerp (p : quat) (t : R) (q : quat) : quat :=
  let d := qdot p q in
  let a := Rabs d in
  let scales := if Rlt_dec a (1 - qtol)
                then let theta := acos a in (sin ((1 - t) * theta) / sin theta, sin (t * theta) / sin theta)
                else (1 - t, t) in
  let k0 := fst scales in
  let k1 := if Rlt_dec d 0 then - snd scales else snd scales in
  Qn (qw p * k0 + qw q * k1) (qx p * k0 + qx q * k1) (qy p * k0 + qy q * k1) (qz p * k0 + qz q * k1).
(** IsApprox, 784-791. *)
Definition is_approx (p q : quat) (precision : R) : bool :=
  let d := qnorm (Qn (qw p - qw q) (qx p - qx q) (qy p - qy q) (qz p - qz q)) in
  if Rlt_dec (d * d) (precision * precision * Rmin (squared_norm p) (squared_norm q)) then true else false.
(** TransformVector, 793-797; operator*(Vector3), 752. *)
Definition transform_vector (q : quat) (v : vec3) : vec3 :=
  let uv0 := vcross (qvec q) v in
  let uv := vadd uv0 uv0 in
  vadd (vadd v (vscale (qw q) uv)) (vcross (qvec q) uv).

(** RollPitchYaw, roll_pitch_yaw.h 90-180. *)
Record rpy : Type := RPY { roll : R; pitch : R; yaw : R }.
(** ToMatrix, roll_pitch_yaw.cc 151-170. *)
Definition to_matrix (a : rpy) : mat :=
  let c0 := cos (roll a) in let c1 := cos (pitch a) in let c2 := cos (yaw a) in
  let s0 := sin (roll a) in let s1 := sin (pitch a) in let s2 := sin (yaw a) in
  let c2_s1 := c2 * s1 in let s2_s1 := s2 * s1 in
  mat3 (c2 * c1) (c2_s1 * s0 - s2 * c0) (c2_s1 * c0 + s2 * s0)
       (s2 * c1) (s2_s1 * s0 + c2 * c0) (s2_s1 * c0 - c2 * s0)
       (- s1) (c1 * s0) (c1 * c0).
(** ToQuaternion, 172-188. *)
Definition to_quaternion (a : rpy) : quat :=
  let c0 := cos (roll a / 2) in let s0 := sin (roll a / 2) in
  let c1 := cos (pitch a / 2) in let s1 := sin (pitch a / 2) in
  let c2 := cos (yaw a / 2) in let s2 := sin (yaw a / 2) in
  let c1_c2 := c1 * c2 in let s1_c2 := s1 * c2 in let s1_s2 := s1 * s2 in let c1_s2 := c1 * s2 in
  Qn (c0 * c1_c2 + s0 * s1_s2) (s0 * c1_c2 - c0 * s1_s2) (c0 * s1_c2 + s0 * c1_s2) (c0 * c1_s2 - s0 * s1_c2).
(** SetFromQuaternion, 95-147; epsilon is that of double. *)
Definition depsilon : R := 1 / 2 ^ 52.
Definition nearly_zero (y x : R) : bool := if Rle_dec (Rabs y) depsilon then if Rle_dec (Rabs x) depsilon then true else false else false.
Definition wrap (a0 : R) : R :=
  let a1 := if Rlt_dec PI a0 then a0 - 2 * PI else a0 in
  if Rlt_dec a1 (- PI) then a1 + 2 * PI else a1.
Definition set_from_quaternion (quaternion : quat) : rpy :=
  let r := to_rotation_matrix quaternion in
  let q := qnormalized quaternion in
  let r22 := r 2%nat 2%nat in let r21 := r 2%nat 1%nat in let r10 := r 1%nat 0%nat in let r00 := r 0%nat 0%nat in
  let rsum := sqrt ((r22 * r22 + r21 * r21 + r10 * r10 + r00 * r00) / 2) in
  let r20 := r 2%nat 0%nat in
  let ya := qx q + qz q in let xa := qw q - qy q in
  let yb := qz q - qx q in let xb := qw q + qy q in
  let za := if nearly_zero ya xa then 0 else atan2 ya xa in
  let zb := if nearly_zero yb xb then 0 else atan2 yb xb in
  RPY (wrap (za - zb)) (atan2 (- r20) rsum) (wrap (za + zb)).
(** CalcRotationMatrixDrDpDy, 206-231. *)
Definition matrix_dr (a : rpy) : mat :=
  let c0 := cos (roll a) in let c1 := cos (pitch a) in let c2 := cos (yaw a) in
  let s0 := sin (roll a) in let s1 := sin (pitch a) in let s2 := sin (yaw a) in
  let c2_s1 := c2 * s1 in let s2_s1 := s2 * s1 in let s2_s0 := s2 * s0 in let s2_c0 := s2 * c0 in
  let c2_s0 := c2 * s0 in let c2_c0 := c2 * c0 in
  mat3 0 (c2_s1 * c0 + s2_s0) (- c2_s1 * s0 + s2_c0)
       0 (s2_s1 * c0 - c2_s0) (- s2_s1 * s0 - c2_c0)
       0 (c1 * c0) (- c1 * s0).
Definition matrix_dp (a : rpy) : mat :=
  let c0 := cos (roll a) in let c1 := cos (pitch a) in let c2 := cos (yaw a) in
  let s0 := sin (roll a) in let s1 := sin (pitch a) in let s2 := sin (yaw a) in
  let c2_s1 := c2 * s1 in let s2_s1 := s2 * s1 in let c2_c1 := c2 * c1 in let s2_c1 := s2 * c1 in
  mat3 (- c2_s1) (c2_c1 * s0) (c2_c1 * c0)
       (- s2_s1) (s2_c1 * s0) (s2_c1 * c0)
       (- c1) (- s1 * s0) (- s1 * c0).
Definition matrix_dy (a : rpy) : mat :=
  let c0 := cos (roll a) in let c1 := cos (pitch a) in let c2 := cos (yaw a) in
  let s0 := sin (roll a) in let s1 := sin (pitch a) in let s2 := sin (yaw a) in
  let c2_s1 := c2 * s1 in let s2_s1 := s2 * s1 in let s2_s0 := s2 * s0 in let s2_c0 := s2 * c0 in
  let c2_c1 := c2 * c1 in let s2_c1 := s2 * c1 in let c2_s0 := c2 * s0 in let c2_c0 := c2 * c0 in
  mat3 (- s2_c1) (- s2_s1 * s0 - c2_c0) (- s2_s1 * c0 + c2_s0)
       c2_c1 (c2_s1 * s0 - s2_c0) (c2_s1 * c0 + s2_s0)
       0 0 0.
(** CalcRotationMatrixDt, 190-204. *)
Definition matrix_dt (a : rpy) (d : vec3) : mat :=
  madd (madd (scale (vx d) (matrix_dr a)) (scale (vy d) (matrix_dp a))) (scale (vz d) (matrix_dy a)).
