(** Model, on doubles, of the nearest neighbour search of include/maliput/math/kd_tree.h.  The tree and its
    construction (kd_tree.h 55-140, 253-271) are those of KdTree_Model: they look at coordinates only through
    std::nth_element. *)
From Coq Require Import List Bool Arith ZArith.
From Coq Require Import Floats.SpecFloat.
From Verif Require Import Base Binary64 KdTree_Model.
Import ListNotations.

Section KdFloat.
(** The Coordinate type, its operator[] and the Dimension: kd_tree.h 232-246. *)
Variable P : Type.
Variable coord : P -> nat -> double.
Variable dim : nat.

(** details::SquaredDistance: kd_tree.h 186-201. *)
Definition fSquaredDistance (lhs rhs : P) : double :=
  fold_left (fun dist i => let d := fsub (coord lhs i) (coord rhs i) in fadd dist (fmul d d)) (seq 0 dim) fzero.

(** KDTreeBase::nearest_point (recursive): kd_tree.h 309-333.  [best] is the pair of nearest_neighbour_node and
    *nearest_neighbour_distance, [None] for the null node. *)
Fixpoint fnearest (t : tree P) (q : P) (index : nat) (tol : double) (best : option (P * double)) : option (P * double) :=
  match t with
  | Null => best
  | Node p _ l r =>
      let d := fSquaredDistance p q in
      let best1 := match best with
                   | None => (p, d)
                   | Some (p0, d0) => if flt d d0 then (p, d) else (p0, d0)
                   end in
      if flt (snd best1) tol then Some best1
      else
        let dx := fsub (coord p index) (coord q index) in
        let index' := Nat.modulo (index + 1) dim in
        let left_first := flt fzero dx in
        let best2 := if left_first then fnearest l q index' tol (Some best1) else fnearest r q index' tol (Some best1) in
        match best2 with
        | None => None
        | Some (p2, d2) =>
            if fle d2 (fmul dx dx) then best2
            else if left_first then fnearest r q index' tol best2 else fnearest l q index' tol best2
        end
  end.

(** KDTreeBase::nearest_point(point, tolerance): kd_tree.h 289-296.  UB is the dereference of a null [best]. *)
Definition fnearest_point (t : tree P) (q : P) (tol : double) : outcome P :=
  match t with
  | Null => Throw
  | _ => throw_unless (flt fzero tol) (match fnearest t q 0 tol None with Some (p, _) => Ok p | None => UB end)
  end.

(** KDTreeBase::nearest_point(point), with std::numeric_limits<double>::min(): kd_tree.h 278-280. *)
Definition double_min : double := fof 1 (-1022).
Definition fnearest_point_default (t : tree P) (q : P) : outcome P := fnearest_point t q double_min.
End KdFloat.
