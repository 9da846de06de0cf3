(** Model of Rotation and the distances in double precision: include/maliput/api/lane_data.h
    160-240, src/maliput/api/lane_data.cc 59-93, quaternion.h 686-712, quaternion.cc 742-745 and
    793-797, vector.cc 107-115 and 255-257, operation by operation.  [acos] is the library's. *)
From Coq Require Import ZArith Bool.
From Verif Require Import Binary64.

Record fvec := FV { fx : double; fy : double; fz : double }.
Record fquat := FQ { gw : double; gx : double; gy : double; gz : double }.
(** Vector3 + and -, * by a number: vector.cc 180-219. *)
Definition fvadd (a b : fvec) : fvec := FV (fadd (fx a) (fx b)) (fadd (fy a) (fy b)) (fadd (fz a) (fz b)).
Definition fvsub (a b : fvec) : fvec := FV (fsub (fx a) (fx b)) (fsub (fy a) (fy b)) (fsub (fz a) (fz b)).
Definition fvscale (k : double) (a : fvec) : fvec := FV (fmul (fx a) k) (fmul (fy a) k) (fmul (fz a) k).
(** std::inner_product from 0., vector.cc 108; norm, 113. *)
Definition fdot (a b : fvec) : double := fadd (fadd (fadd fzero (fmul (fx b) (fx a))) (fmul (fy b) (fy a))) (fmul (fz b) (fz a)).
Definition fnorm (a : fvec) : double := fsqrt (fdot a a).
(** cross, 255-257. *)
Definition fcross (a v : fvec) : fvec :=
  FV (fsub (fmul (fy a) (fz v)) (fmul (fz a) (fy v))) (fsub (fmul (fz a) (fx v)) (fmul (fx a) (fz v))) (fsub (fmul (fx a) (fy v)) (fmul (fy a) (fx v))).
(** norm, normalize, quaternion.h 689-705; kTolerance (608) is the double 1e-15. *)
Definition fqnorm (q : fquat) : double := fsqrt (fadd (fadd (fadd (fmul (gx q) (gx q)) (fmul (gy q) (gy q))) (fmul (gz q) (gz q))) (fmul (gw q) (gw q))).
Definition ktol : double := fof 5070602400912918 (-102).
Definition fqnormalized (q : fquat) : fquat :=
  let s := fqnorm q in if flt s ktol then FQ (fint 1) fzero fzero fzero else FQ (fdiv (gw q) s) (fdiv (gx q) s) (fdiv (gy q) s) (fdiv (gz q) s).
(** TransformVector, quaternion.cc 793-797. *)
Definition ftransform (q : fquat) (v : fvec) : fvec :=
  let u := FV (gx q) (gy q) (gz q) in let uv0 := fcross u v in let uv := fvadd uv0 uv0 in fvadd (fvadd v (fvscale (gw q) uv)) (fcross u uv).
(** FromQuat, lane_data.h 168; Apply, lane_data.cc 63-65. *)
Definition frot (q : fquat) : fquat := fqnormalized q.
Definition fapply (r : fquat) (p : fvec) : fvec := ftransform r p.
Definition axis_s : fvec := FV (fint 1) fzero fzero.
Definition axis_r : fvec := FV fzero (fint 1) fzero.
Definition axis_h : fvec := FV fzero fzero (fint 1).
Section Acos.
Variable acos : double -> double.
(** Rotation::Distance, 78-93. *)
Definition fdistance (a b : fquat) : double :=
  let ds := acos (fdot (fapply a axis_s) (fapply b axis_s)) in
  let dr := acos (fdot (fapply a axis_r) (fapply b axis_r)) in
  let dh := acos (fdot (fapply a axis_h) (fapply b axis_h)) in
  fsqrt (fadd (fadd (fmul ds ds) (fmul dr dr)) (fmul dh dh)).
(** InertialPosition::Distance, 59-61. *)
Definition fposition_distance (a b : fvec) : double := fnorm (fvsub a b).
(** The test of IsContiguous, regions.cc 62-63. *)
Definition fcontiguous (pa pb : fvec) (ra rb : fquat) (linear angular : double) : bool :=
  flt (fposition_distance pa pb) linear && flt (fdistance ra rb) angular.
(** The test of CheckInvariants, road_geometry.cc 192-193: true is a failure. *)
Definition forientation_fails (reference out : fquat) (angular : double) : bool := fgt (fdistance reference out) angular.
End Acos.
