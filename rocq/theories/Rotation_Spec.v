(** Rotations of space, independent of the library's formulas. *)
From Coq Require Import Reals.
From Verif Require Import Rotation_Model.
Local Open Scope R_scope.

(** Inner product, length and signed volume. *)
Definition inner (a b : vec3) : R := vx a * vx b + vy a * vy b + vz a * vz b.
Definition length (a : vec3) : R := sqrt (inner a a).
Definition volume (a b c : vec3) : R :=
  vx a * (vy b * vz c - vz b * vy c) - vy a * (vx b * vz c - vz b * vx c) + vz a * (vx b * vy c - vy b * vx c).
(** A rotation keeps lengths, angles and handedness. *)
Definition rotation (f : vec3 -> vec3) : Prop :=
  (forall a b, inner (f a) (f b) = inner a b) /\ (forall a b c, volume (f a) (f b) (f c) = volume a b c).
(** The linear map with the given entries, and the product of two. *)
Definition linear (m : nat -> nat -> R) (v : vec3) : vec3 :=
  let row i := m i 0%nat * vx v + m i 1%nat * vy v + m i 2%nat * vz v in V3 (row 0%nat) (row 1%nat) (row 2%nat).
Definition entries_equal (a b : nat -> nat -> R) : Prop := forall i j, (i < 3)%nat -> (j < 3)%nat -> a i j = b i j.
Definition times (a b : nat -> nat -> R) : nat -> nat -> R := fun i j => a i 0%nat * b 0%nat j + a i 1%nat * b 1%nat j + a i 2%nat * b 2%nat j.
(** Unit quaternions, and the two quaternions of one rotation. *)
Definition unit (q : quat) : Prop := qw q * qw q + qx q * qx q + qy q * qy q + qz q * qz q = 1.
Definition opposite (q : quat) : quat := Qn (- qw q) (- qx q) (- qy q) (- qz q).
Definition zero3 : vec3 := V3 0 0 0.
(** [b] is a positive multiple of [a]. *)
Definition same_direction (a b : vec3) : Prop := exists k, 0 < k /\ b = V3 (k * vx a) (k * vy a) (k * vz a).
(** The turn about [axis] (a unit vector) by [angle], by Rodrigues' formula. *)
Definition turn (angle : R) (axis v : vec3) : vec3 :=
  let c := cos angle in let s := sin angle in let d := (1 - c) * inner axis v in
  V3 (c * vx v + s * (vy axis * vz v - vz axis * vy v) + d * vx axis)
     (c * vy v + s * (vz axis * vx v - vx axis * vz v) + d * vy axis)
     (c * vz v + s * (vx axis * vy v - vy axis * vx v) + d * vz axis).
(** The turns about the three axes of the frame, roll_pitch_yaw.h 80-89. *)
Definition rot_x (a : R) : nat -> nat -> R := mat3 1 0 0 0 (cos a) (- sin a) 0 (sin a) (cos a).
Definition rot_y (a : R) : nat -> nat -> R := mat3 (cos a) 0 (sin a) 0 1 0 (- sin a) 0 (cos a).
Definition rot_z (a : R) : nat -> nat -> R := mat3 (cos a) (- sin a) 0 (sin a) (cos a) 0 0 0 1.
