(** Model, on doubles, of KDTree3D of include/maliput/math/kd_tree.h.  Boxes are those of Doubles_Model, trees without
    regions those of KdTree_Model. *)
From Coq Require Import List Bool Arith ZArith.
From Coq Require Import Floats.SpecFloat.
From Verif Require Import Base Binary64 KdTree_Model Doubles_Model.
Import ListNotations.

(** std::numeric_limits<double>::infinity() and its opposite, kd_tree.h 163-165 and 426-430. *)
Definition pinf : double := S754_infinity false.
Definition ninf : double := S754_infinity true.
Definition lowest : vec := mk_vec ninf ninf ninf.
Definition highest : vec := mk_vec pinf pinf pinf.
(** Vector3::operator[] assigned to: kd_tree.h 167-171. *)
Definition set_coordinate (v : vec) (i : nat) (a : double) : vec :=
  match i with O => mk_vec a (vy v) (vz v) | 1%nat => mk_vec (vx v) a (vz v) | _ => mk_vec (vx v) (vy v) a end.
(** kTolerance = 1e-14: include/maliput/math/axis_aligned_box.h 74. *)
Definition default_tolerance : double := fdiv (fint 1) (fint (10 ^ 14)).

Section KdRange.
(** The Coordinate type and its operator[]: kd_tree.h 386-389. *)
Variable P : Type.
Variable coord : P -> nat -> double.

(** Nodes with regions: kd_tree.h 55-97. *)
Inductive frtree :=
| FNull
| FNode (p : P) (index : nat) (region : box) (l r : frtree).

(** Initialize3dRegions: kd_tree.h 160-180.  The parent's region, coordinate and index are arguments. *)
Fixpoint fInitialize3dRegions (left : bool) (pregion : box) (pp : P) (pindex : nat) (t : tree P) : outcome frtree :=
  match t with
  | Null => Ok FNull
  | Node p index l r =>
      let mn := if left then lowest else set_coordinate lowest pindex (coord pp pindex) in
      let mx := if left then set_coordinate highest pindex (coord pp pindex) else highest in
      obind (AxisAlignedBox mn mx default_tolerance) (fun half_space =>
      obind (GetIntersection pregion half_space) (fun reg =>
      match reg with
      | None => Throw
      | Some region =>
          obind (fInitialize3dRegions true region p index l) (fun l' =>
          obind (fInitialize3dRegions false region p index r) (fun r' =>
          Ok (FNode p index region l' r')))
      end))
  end.
(** KDTree3D::InitializeRegions: kd_tree.h 425-433. *)
Definition fInitializeRegions (t : tree P) : outcome frtree :=
  match t with
  | Null => UB
  | Node p index l r =>
      obind (AxisAlignedBox lowest highest default_tolerance) (fun region =>
      obind (fInitialize3dRegions true region p index l) (fun l' =>
      obind (fInitialize3dRegions false region p index r) (fun r' =>
      Ok (FNode p index region l' r'))))
  end.
(** KDTree3D constructors: kd_tree.h 389-406. *)
Definition fKDTree3D (nth_element : nat -> nat -> list P -> list P) (points : list P) : outcome frtree :=
  obind (KDTree P 3 nth_element points) fInitializeRegions.

(** The point {coordinate[0], coordinate[1], coordinate[2]}: kd_tree.h 445 and 460. *)
Definition fto_vec (p : P) : vec := mk_vec (coord p 0) (coord p 1) (coord p 2).
(** KDTree3D::ReportPointsInSubTree: kd_tree.h 474-481. *)
Fixpoint fReportPointsInSubTree (t : frtree) : list P :=
  match t with FNull => [] | FNode p _ _ l r => p :: fReportPointsInSubTree l ++ fReportPointsInSubTree r end.
(** KDTree3D::RangeSearch: kd_tree.h 412-416 and 440-469; the deque is returned instead of appended to. *)
Fixpoint fRangeSearch (region : box) (t : frtree) : list P :=
  match t with
  | FNull => []
  | FNode p _ nregion l r =>
      let own := if DoContains region (fto_vec p) then [p] else [] in
      match l, r with
      | FNull, FNull => own
      | _, _ =>
          match DoOverlaps region nregion with
          | kContained => fReportPointsInSubTree t
          | kIntersected => own ++ fRangeSearch region l ++ fRangeSearch region r
          | kDisjointed => []
          end
      end
  end.
End KdRange.
Arguments FNull {P}.
Arguments FNode {P} p index region l r.
