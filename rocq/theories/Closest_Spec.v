(** Specification vocabulary for C108 and C109. *)
From Coq Require Import List ZArith.
From Verif Require Import Binary64 Binary64_Round Binary64_Ext Doubles_Model Doubles_Spec Closest_Model.
Import ListNotations.
Local Open Scope Z_scope.

(** All lanes of a road geometry. *)
Definition all_lanes (rg : list (list (list nat))) : list nat := concat (concat rg).
(** [e] units of 2^-1074 are 1e-12 up to one part in 2^53. *)
Definition about_1e12 (e : Z) : Prop := 2 ^ 53 * Z.abs (10 ^ 12 * e - 2 ^ 1074) <= 2 ^ 1074.
(** A result with proper fields, NaN and infinities included. *)
Definition proper_result (x : fresult) : Prop := valid (fr_dist x) /\ valid (fr_r x).
(** A sampled point in the cube with half edge [h] around [p], by exact comparisons; [h] may be infinite. *)
Definition in_cube (p : vec) (h : double) (m : mpoint) : Prop :=
  finite h = false \/
  (Z.abs (val (vx (fst m)) - val (vx p)) <= val h /\ Z.abs (val (vy (fst m)) - val (vy p)) <= val h /\ Z.abs (val (vz (fst m)) - val (vz p)) <= val h).
(** Sampled points: finite, and on a lane. *)
Definition sampled (pts : list mpoint) : Prop := forall m, In m pts -> vec_double (fst m) /\ exists n, snd m = Some n.
