(** What orientations and distances mean. *)
From Coq Require Import Reals.
From Verif Require Import Rotation_Model Rotation_Spec LaneData_Model.
Local Open Scope R_scope.

(** Every Rotation a program can get hold of. *)
Inductive made : quat -> Prop :=
| made_default : made rot_default
| made_quat q : made (from_quat q)
| made_rpy a : made (from_rpy a)
| made_reverse r : made r -> made (reverse r).
(** [t] is the angle between the vectors [u] and [v] of equal length. *)
Definition angle_of (u v : vec3) (t : R) : Prop := 0 <= t <= PI /\ inner u v = cos t * (length u * length v).
(** The same orientation. *)
Definition same_orientation (a b : quat) : Prop := forall v, apply a v = apply b v.
(** A distance function up to [same]. *)
Definition metric {A} (ok : A -> Prop) (same : A -> A -> Prop) (d : A -> A -> R) : Prop :=
  forall a b c, ok a -> ok b -> ok c -> 0 <= d a b /\ d a b = d b a /\ (d a b = 0 <-> same a b) /\ d a c <= d a b + d b c.
