(** Model of src/maliput/math/bounding_box.cc.  Numbers are exact reals. *)
From Coq Require Import Reals List Arith Bool.
From Verif Require Import Base Matrix_Model Rotation_Model.
Import ListNotations.
Local Open Scope R_scope.

(** position_, box_size_, orientation_, tolerance_: bounding_box.h 92-95. *)
Record box : Type := Box { b_position : vec3; b_size : vec3; b_orientation : rpy; b_tolerance : R }.
(** xyz_2_, bounding_box.cc 41. *)
Definition half (b : box) : vec3 := V3 (vx (b_size b) / 2) (vy (b_size b) / 2) (vz (b_size b) / 2).
(** [a <= b] as a test. *)
Definition Rleb (a b : R) : bool := if Rle_dec a b then true else false.
(** Constructor, 35-46. *)
Definition make_box (position size : vec3) (o : rpy) (tolerance : R) : outcome box :=
  throw_unless (Rleb 0 tolerance) (throw_unless (Rleb 0 (vx size)) (throw_unless (Rleb 0 (vy size))
    (throw_unless (Rleb 0 (vz size)) (Ok (Box position size o tolerance))))).
(** get_vertices, 50-62. *)
Definition corners (h : vec3) : list vec3 :=
  [V3 (vx h) (vy h) (vz h); V3 (- vx h) (vy h) (vz h); V3 (vx h) (- vy h) (vz h); V3 (vx h) (vy h) (- vz h);
   V3 (- vx h) (- vy h) (vz h); V3 (vx h) (- vy h) (- vz h); V3 (- vx h) (vy h) (- vz h); V3 (- vx h) (- vy h) (- vz h)].
Definition get_vertices (b : box) : outcome (list vec3) :=
  omap (fun m => map (fun v => vadd (mat_vec m v) (b_position b)) (corners (half b))) (inverse 3 (to_matrix (b_orientation b))).
(** DoContains, 68-73. *)
Definition contains (b : box) (p : vec3) : bool :=
  let q := mat_vec (to_matrix (b_orientation b)) (vsub p (b_position b)) in
  let h := half b in let tol := b_tolerance b in
  Rleb (vx q) (vx h + tol) && Rleb (- vx h - tol) (vx q) && Rleb (vy q) (vy h + tol) && Rleb (- vy h - tol) (vy q) &&
  Rleb (vz q) (vz h + tol) && Rleb (- vz h - tol) (vz q).
(** IsBoxContained, 87-90. *)
Definition is_box_contained (b other : box) : outcome bool := omap (forallb (contains b)) (get_vertices other).
(** kEpsilon, 105. *)
Definition kepsilon : R := 1 / 1000000.
(** Vector3::operator[], Matrix::col (matrix.cc 81-90). *)
Definition coord (v : vec3) (i : nat) : R := match i with O => vx v | S O => vy v | _ => vz v end.
Definition column (m : mat) (i : nat) : vec3 := V3 (m 0%nat i) (m 1%nat i) (m 2%nat i).
(** One test of IsBoxIntersected; true = not separated. *)
Definition not_above (a b : R) : bool := if Rlt_dec b a then false else true.
(** IsBoxIntersected, 92-152; i1 and i2 (and j1, j2) are the two following indices modulo 3. *)
Definition next (i : nat) : nat := match i with O => 1%nat | S O => 2%nat | _ => 0%nat end.
Definition separating_tests (t ha hb : vec3) (r : mat) : bool :=
  let abs_r : mat := fun i j => Rabs (r i j) + kepsilon in
  forallb (fun i => not_above (Rabs (coord t i)) (coord ha i + vdot hb (column abs_r i))) [0; 1; 2]%nat &&
  forallb (fun i => not_above (Rabs (vdot t (column r i))) (coord hb i + vdot ha (column abs_r i))) [0; 1; 2]%nat &&
  forallb (fun i => let i1 := next i in let i2 := next i1 in
    forallb (fun j => let j1 := next j in let j2 := next j1 in
      not_above (Rabs (coord t i2 * r i1 j - coord t i1 * r i2 j))
        (coord ha i1 * abs_r i2 j + coord ha i2 * abs_r i1 j + coord hb j1 * abs_r i j2 + coord hb j2 * abs_r i j1)) [0; 1; 2]%nat) [0; 1; 2]%nat.
Definition is_box_intersected (b other : box) : outcome bool :=
  omap (fun m => separating_tests (vsub (b_position other) (b_position b)) (half b) (half other) (mul 3 m (to_matrix (b_orientation other))))
    (inverse 3 (to_matrix (b_orientation b))).
(** OverlappingType, overlapping_type.h; DoOverlaps, 75-85 (for a BoundingBox). *)
Inductive overlap := Disjointed | Intersected | Contained.
Definition overlaps (b other : box) : outcome overlap :=
  obind (is_box_contained b other) (fun c => if c then Ok Contained else
  omap (fun i : bool => if i then Intersected else Disjointed) (is_box_intersected b other)).
