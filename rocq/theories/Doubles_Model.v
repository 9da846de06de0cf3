(** Models, on doubles, of the comparisons with tolerances: Lane::Contains (src/maliput/api/lane.cc),
    AxisAlignedBox (src/maliput/math/axis_aligned_box.cc), RangeValidator (src/maliput/common/range_validator.cc),
    SRange (src/maliput/api/regions.cc), and of the loops that sample lanes
    (src/maliput/geometry_base/kd_tree_strategy.cc, src/maliput/api/road_geometry.cc). *)
From Coq Require Import List Bool ZArith.
From Coq Require Import Floats.SpecFloat.
From Verif Require Import Base Binary64.
Import ListNotations.

(** std::max(a, b) and std::min(a, b), called in regions.cc 82-118 and axis_aligned_box.cc 91-96. *)
Definition fmax (a b : double) : double := if flt a b then b else a.
Definition fmin (a b : double) : double := if flt b a then b else a.

(** ** api/lane.cc *)

(** IsWithinRange, lane.cc 41-43. *)
Definition IsWithinRange (x min max tolerance : double) : bool := fle (fsub min tolerance) x && fle x (fadd max tolerance).
(** RBounds and HBounds, and what Lane::Contains asks a lane for, lane.cc 140-144; the bounds may throw. *)
Record bounds := mk_bounds { b_min : double; b_max : double }.
Record lane := mk_lane {
  segment_bounds : double -> outcome bounds; elevation_bounds : double -> double -> outcome bounds;
  length : double; linear_tolerance : double }.
(** Lane::Contains, lane.cc 137-152. *)
Definition Lane_Contains (l : lane) (s r h : double) : outcome bool :=
  obind (segment_bounds l s) (fun sb =>
  obind (elevation_bounds l s r) (fun eb =>
  let tolerance := linear_tolerance l in
  Ok (IsWithinRange s fzero (length l) tolerance && IsWithinRange r (b_min sb) (b_max sb) tolerance &&
      IsWithinRange h (b_min eb) (b_max eb) tolerance))).

(** ** math/axis_aligned_box.cc *)
(** Vector3, include/maliput/math/vector.h 230, and AxisAlignedBox, include/maliput/math/axis_aligned_box.h 92-94. *)
Record vec := mk_vec { vx : double; vy : double; vz : double }.
Record box := mk_box { min_corner : vec; max_corner : vec; tolerance : double }.
(** AxisAlignedBox::AxisAlignedBox, axis_aligned_box.cc 37-44; position_ is left out. *)
Definition AxisAlignedBox (mn mx : vec) (tol : double) : outcome box :=
  throw_unless (fle fzero tol) (throw_unless (fle (vx mn) (vx mx)) (throw_unless (fle (vy mn) (vy mx)) (throw_unless (fle (vz mn) (vz mx)) (Ok (mk_box mn mx tol))))).
(** AxisAlignedBox::get_vertices, 48-53. *)
Definition get_vertices (b : box) : list vec :=
  let mn := min_corner b in
  let mx := max_corner b in
  [mk_vec (vx mn) (vy mn) (vz mn); mk_vec (vx mn) (vy mn) (vz mx); mk_vec (vx mn) (vy mx) (vz mn); mk_vec (vx mn) (vy mx) (vz mx);
   mk_vec (vx mx) (vy mn) (vz mn); mk_vec (vx mx) (vy mn) (vz mx); mk_vec (vx mx) (vy mx) (vz mn); mk_vec (vx mx) (vy mx) (vz mx)].
(** AxisAlignedBox::DoContains, 55-59. *)
Definition DoContains (b : box) (p : vec) : bool :=
  fle (fsub (vx (min_corner b)) (tolerance b)) (vx p) && fle (vx p) (fadd (vx (max_corner b)) (tolerance b)) &&
  fle (fsub (vy (min_corner b)) (tolerance b)) (vy p) && fle (vy p) (fadd (vy (max_corner b)) (tolerance b)) &&
  fle (fsub (vz (min_corner b)) (tolerance b)) (vz p) && fle (vz p) (fadd (vz (max_corner b)) (tolerance b)).
(** IsBoxIntersected, 76-81, and IsBoxContained, 83-86. *)
Definition IsBoxIntersected (a b : box) : bool :=
  negb (flt (vx (max_corner a)) (vx (min_corner b)) || flt (vx (max_corner b)) (vx (min_corner a)) ||
        flt (vy (max_corner a)) (vy (min_corner b)) || flt (vy (max_corner b)) (vy (min_corner a)) ||
        flt (vz (max_corner a)) (vz (min_corner b)) || flt (vz (max_corner b)) (vz (min_corner a))).
Definition IsBoxContained (a b : box) : bool := forallb (DoContains a) (get_vertices b).
(** DoOverlaps, 61-74. *)
Inductive overlapping := kDisjointed | kIntersected | kContained.
Definition DoOverlaps (a b : box) : overlapping :=
  if IsBoxIntersected a b then (if IsBoxContained a b then kContained else kIntersected) else kDisjointed.
(** GetIntersection, 88-99. *)
Definition GetIntersection (a b : box) : outcome (option box) :=
  if negb (IsBoxIntersected a b) then Ok None
  else
    let mn := mk_vec (fmax (vx (min_corner a)) (vx (min_corner b))) (fmax (vy (min_corner a)) (vy (min_corner b))) (fmax (vz (min_corner a)) (vz (min_corner b))) in
    let mx := mk_vec (fmin (vx (max_corner a)) (vx (max_corner b))) (fmin (vy (max_corner a)) (vy (max_corner b))) (fmin (vz (max_corner a)) (vz (max_corner b))) in
    omap Some (AxisAlignedBox mn mx (tolerance a)).

(** ** common/range_validator.cc *)
(** RangeValidator, include/maliput/common/range_validator.h 105-108. *)
Record validator := mk_validator { v_min : double; v_max : double; v_tol : double; v_eps : double }.
(** RangeValidator::RangeValidator, range_validator.cc 49-66. *)
Definition RangeValidator (relative : bool) (mn mx tol eps : double) : outcome validator :=
  throw_unless (flt fzero tol)
    (let e := if relative then fmul (fsub mx mn) eps else eps in
     throw_unless (fle fzero e) (throw_unless (fle e tol)
       (throw_unless (fle (fadd mn e) mx) (throw_unless (fle mn (fsub mx e)) (Ok (mk_validator mn mx tol e)))))).
(** std::clamp(v, lo, hi): undefined if hi < lo. *)
Definition clamp (v lo hi : double) : outcome double :=
  if flt hi lo then UB else Ok (if flt v lo then lo else if flt hi v then hi else v).
(** RangeValidator::operator(), 68-71. *)
Definition validate (r : validator) (s : double) : outcome double :=
  throw_unless (fle (fsub (v_min r) (v_tol r)) s) (throw_unless (fle s (fadd (v_max r) (v_tol r)))
    (clamp s (fadd (v_min r) (v_eps r)) (fsub (v_max r) (v_eps r)))).

(** ** api/regions.cc *)
(** SRange, include/maliput/api/regions.h 125-126. *)
Record srange := mk_srange { s0 : double; s1 : double }.
(** SRange::SRange, regions.cc 66-69. *)
Definition SRange (a b : double) : outcome srange := throw_unless (fle fzero a) (throw_unless (fle fzero b) (Ok (mk_srange a b))).
(** size() and WithS(), include/maliput/api/regions.h 86 and 91. *)
Definition size (r : srange) : double := fabs (fsub (s1 r) (s0 r)).
Definition WithS (r : srange) : bool := flt (s0 r) (s1 r).
(** The literal 2. of regions.cc 85 and 96. *)
Definition ftwo : double := fint 2.
(** The first tests of Intersects and Contains, regions.cc 82-86 and 93-97. *)
Definition checked {A} (a b : srange) (tol : double) (k : outcome A) : outcome A :=
  throw_unless (fle fzero (fmin (s0 a) (s1 a)) && fle fzero (fmin (s0 b) (s1 b)))
    (if flt tol fzero then throw_unless (fle (fabs tol) (fdiv (fmin (size a) (size b)) ftwo)) k else k).
(** SRange::Intersects, regions.cc 81-90. *)
Definition Intersects (a b : srange) (tol : double) : outcome bool :=
  checked a b tol
    (obind (SRange (fmax (fsub (fmin (s0 a) (s1 a)) tol) fzero) (fadd (fmax (s0 a) (s1 a)) tol)) (fun wider =>
      Ok (negb (flt (fmax (s0 b) (s1 b)) (s0 wider) || flt (s1 wider) (fmin (s0 b) (s1 b)))))).
(** SRange::Contains, regions.cc 92-103. *)
Definition SRange_Contains (a b : srange) (tol : double) : outcome bool :=
  checked a b tol
    (let min_range := fmax (if WithS a then fsub (s0 a) tol else fsub (s1 a) tol) fzero in
     let max_range := if WithS a then fadd (s1 a) tol else fadd (s0 a) tol in
     let s1_is_in_range := fle (s1 b) max_range && fle min_range (s1 b) in
     let s0_is_in_range := fle (s0 b) max_range && fle min_range (s0 b) in
     Ok (s1_is_in_range && s0_is_in_range)).
(** SRange::GetIntersection, regions.cc 105-118. *)
Definition SRange_GetIntersection (a b : srange) (tol : double) : outcome (option srange) :=
  obind (Intersects a b tol) (fun i =>
    if i then
      obind (SRange (fmax (fsub (fmin (s0 a) (s1 a)) tol) fzero) (fadd (fmax (s0 a) (s1 a)) tol)) (fun wider =>
        let max := if fle (s1 wider) (fmax (s0 b) (s1 b)) then fmax (s0 a) (s1 a) else fmax (s0 b) (s1 b) in
        let min := if fle (fmin (s0 b) (s1 b)) (s0 wider) then fmin (s0 a) (s1 a) else fmin (s0 b) (s1 b) in
        omap Some (SRange min max))
    else Ok None).

(** ** Sampling loops *)

(** for (double s = from; s <= to; s += step), kd_tree_strategy.cc 47 and 49 and road_geometry.cc 234-237: the
    values of s in the body and the value after the loop; [None] when the loop has not ended after [fuel] turns. *)
Fixpoint loop (fuel : nat) (s step to : double) : option (list double * double) :=
  match fuel with
  | O => None
  | S k => if fle s to then match loop k (fadd s step) step to with Some (l, e) => Some (s :: l, e) | None => None end
           else Some ([], s)
  end.
(** The values of s that DoSampleAheadWaypoints takes on each range, road_geometry.cc 226-239; [rate] is the
    sampling rate it has chosen, [d] is previous_s_difference. *)
Fixpoint ahead (fuel : nat) (ranges : list srange) (rate d : double) : option (list (list double) * double) :=
  match ranges with
  | [] => Some ([], d)
  | r :: rest =>
    match loop fuel (fadd (fadd d (s0 r)) rate) rate (s1 r) with
    | None => None
    | Some (l, e) =>
      match ahead fuel rest rate (fsub (fsub e (s1 r)) rate) with Some (ll, e') => Some (l :: ll, e') | None => None end
    end
  end.
