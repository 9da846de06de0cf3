(** Solid boxes. *)
From Coq Require Import Reals List.
From Verif Require Import Rotation_Model Rotation_Spec.
Import ListNotations.
Local Open Scope R_scope.

(** Three directions. *)
Record frame : Type := Frame { f1 : vec3; f2 : vec3; f3 : vec3 }.
Definition at_ (c : vec3) (f : frame) (u1 u2 u3 : R) : vec3 :=
  V3 (vx c + (u1 * vx (f1 f) + u2 * vx (f2 f) + u3 * vx (f3 f)))
     (vy c + (u1 * vy (f1 f) + u2 * vy (f2 f) + u3 * vy (f3 f)))
     (vz c + (u1 * vz (f1 f) + u2 * vz (f2 f) + u3 * vz (f3 f))).
(** The points of the box with that centre, those axes and sizes, grown by [tol] on every side. *)
Definition in_box (c : vec3) (f : frame) (size : vec3) (tol : R) (p : vec3) : Prop :=
  exists u1 u2 u3, - (vx size / 2 + tol) <= u1 <= vx size / 2 + tol /\ - (vy size / 2 + tol) <= u2 <= vy size / 2 + tol /\
    - (vz size / 2 + tol) <= u3 <= vz size / 2 + tol /\ p = at_ c f u1 u2 u3.
(** The images of the axes under a rotation and under its inverse. *)
Definition turned (f : vec3 -> vec3) : frame := Frame (f (V3 1 0 0)) (f (V3 0 1 0)) (f (V3 0 0 1)).
Definition rpy_map (o : rpy) (v : vec3) : vec3 := linear (rot_z (yaw o)) (linear (rot_y (pitch o)) (linear (rot_x (roll o)) v)).
Definition rpy_unmap (o : rpy) (v : vec3) : vec3 := linear (rot_x (- roll o)) (linear (rot_y (- pitch o)) (linear (rot_z (- yaw o)) v)).
(** Convex combinations. *)
Fixpoint combine_at (w : list R) (l : list vec3) : vec3 :=
  match w, l with
  | k :: w', v :: l' => let r := combine_at w' l' in V3 (k * vx v + vx r) (k * vy v + vy r) (k * vz v + vz r)
  | _, _ => zero3
  end.
Definition sum_of (w : list R) : R := fold_right Rplus 0 w.
Definition hull (l : list vec3) (p : vec3) : Prop :=
  exists w, List.length w = List.length l /\ (forall k, In k w -> 0 <= k) /\ sum_of w = 1 /\ p = combine_at w l.
