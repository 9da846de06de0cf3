(** Model of include/maliput/math/kd_tree.h and src/maliput/math/axis_aligned_box.cc.
    Simplification: doubles are rationals extended with both infinities (no NaN, no
    rounding); box tolerances and point coordinates are finite. *)
From Coq Require Import List QArith Bool Arith.
From Verif Require Import Base.
Import ListNotations.
Open Scope Q_scope.

(** Extended doubles. *)
Inductive ext := NInf | Fin (q : Q) | PInf.

Definition eleb (a b : ext) : bool :=
  match a, b with
  | NInf, _ => true
  | _, PInf => true
  | Fin x, Fin y => Qleb x y
  | _, _ => false
  end.
Definition eltb (a b : ext) : bool := negb (eleb b a).
(** std::max / std::min on doubles. *)
Definition emax (a b : ext) : ext := if eltb a b then b else a.
Definition emin (a b : ext) : ext := if eltb b a then b else a.
(** double - tolerance, double + tolerance. *)
Definition esub (a : ext) (t : Q) : ext := match a with Fin x => Fin (x - t) | _ => a end.
Definition eadd (a : ext) (t : Q) : ext := match a with Fin x => Fin (x + t) | _ => a end.

(** Vector3: include/maliput/math/vector.h; [v[i]] is [vget v i]. *)
Record vec3 := V3 { vx : ext; vy : ext; vz : ext }.
Definition vget (v : vec3) (i : nat) : ext :=
  match i with O => vx v | 1%nat => vy v | _ => vz v end.
Definition vset (v : vec3) (i : nat) (a : ext) : vec3 :=
  match i with
  | O => V3 a (vy v) (vz v)
  | 1%nat => V3 (vx v) a (vz v)
  | _ => V3 (vx v) (vy v) a
  end.

(** AxisAlignedBox data members (position_ is write-only here and left out):
    include/maliput/math/axis_aligned_box.h 44-96. *)
Record box := mk_box { bmin : vec3; bmax : vec3; btol : Q }.

(** AxisAlignedBox::AxisAlignedBox(min,max,tolerance): axis_aligned_box.cc 37-44. *)
Definition Box (mn mx : vec3) (tol : Q) : outcome box :=
  throw_unless (Qleb 0 tol)
  (throw_unless (eleb (vx mn) (vx mx))
  (throw_unless (eleb (vy mn) (vy mx))
  (throw_unless (eleb (vz mn) (vz mx))
     (Ok (mk_box mn mx tol))))).

(** kTolerance = 1e-14: axis_aligned_box.h 74; two argument constructor: axis_aligned_box.cc 34-35. *)
Definition kTolerance : Q := 1 # 100000000000000.

(** AxisAlignedBox::get_vertices: axis_aligned_box.cc 48-53. *)
Definition get_vertices (b : box) : list vec3 :=
  [ V3 (vx (bmin b)) (vy (bmin b)) (vz (bmin b)); V3 (vx (bmin b)) (vy (bmin b)) (vz (bmax b));
    V3 (vx (bmin b)) (vy (bmax b)) (vz (bmin b)); V3 (vx (bmin b)) (vy (bmax b)) (vz (bmax b));
    V3 (vx (bmax b)) (vy (bmin b)) (vz (bmin b)); V3 (vx (bmax b)) (vy (bmin b)) (vz (bmax b));
    V3 (vx (bmax b)) (vy (bmax b)) (vz (bmin b)); V3 (vx (bmax b)) (vy (bmax b)) (vz (bmax b)) ].

(** AxisAlignedBox::DoContains: axis_aligned_box.cc 55-59. *)
Definition BContains (b : box) (p : vec3) : bool :=
  eleb (esub (vx (bmin b)) (btol b)) (vx p) && eleb (vx p) (eadd (vx (bmax b)) (btol b)) &&
  eleb (esub (vy (bmin b)) (btol b)) (vy p) && eleb (vy p) (eadd (vy (bmax b)) (btol b)) &&
  eleb (esub (vz (bmin b)) (btol b)) (vz p) && eleb (vz p) (eadd (vz (bmax b)) (btol b)).

(** AxisAlignedBox::IsBoxIntersected: axis_aligned_box.cc 76-81. *)
Definition IsBoxIntersected (a b : box) : bool :=
  negb (eltb (vx (bmax a)) (vx (bmin b)) || eltb (vx (bmax b)) (vx (bmin a)) ||
        eltb (vy (bmax a)) (vy (bmin b)) || eltb (vy (bmax b)) (vy (bmin a)) ||
        eltb (vz (bmax a)) (vz (bmin b)) || eltb (vz (bmax b)) (vz (bmin a))).

(** AxisAlignedBox::IsBoxContained: axis_aligned_box.cc 83-86. *)
Definition IsBoxContained (a b : box) : bool := forallb (BContains a) (get_vertices b).

(** AxisAlignedBox::GetIntersection: axis_aligned_box.cc 88-99. *)
Definition BGetIntersection (a b : box) : outcome (option box) :=
  if negb (IsBoxIntersected a b) then Ok None
  else obind (Box (V3 (emax (vx (bmin a)) (vx (bmin b))) (emax (vy (bmin a)) (vy (bmin b))) (emax (vz (bmin a)) (vz (bmin b))))
                  (V3 (emin (vx (bmax a)) (vx (bmax b))) (emin (vy (bmax a)) (vy (bmax b))) (emin (vz (bmax a)) (vz (bmax b))))
                  (btol a))
             (fun r => Ok (Some r)).

(** OverlappingType (the three values DoOverlaps can return) and
    AxisAlignedBox::DoOverlaps: axis_aligned_box.cc 61-74.  The dynamic_cast of line
    62 always succeeds here: both regions are AxisAlignedBox. *)
Inductive overlapping := kDisjointed | kIntersected | kContained.
Definition Overlaps (a b : box) : overlapping :=
  if IsBoxIntersected a b then if IsBoxContained a b then kContained else kIntersected
  else kDisjointed.

(** The KD-tree templates.  [P] is the Coordinate type, [coord p i] is [p[i]],
    [dim] the Dimension. *)
Section KdTree.
Variable P : Type.
Variable coord : P -> nat -> Q.
Variable dim : nat.

(** details::Node: kd_tree.h 55-97.  Children are owned instead of pointed to; the
    parent pointer is passed down where the code follows it. *)
Inductive tree :=
| Null
| Node (p : P) (index : nat) (l r : tree).

(** std::nth_element(begin, begin+k, end, NodeCmp(index)) on the segment [l]: an
    oracle [nth_element index k l] giving the rearranged segment (kd_tree.h 128). *)
Variable nth_element : nat -> nat -> list P -> list P.

(** MakeKdTree: kd_tree.h 119-140.  The segment [begin,end) of the deque is the list
    [l]; recursion depth is bounded by [fuel], [UB] marks its exhaustion (excluded by
    the theorems).  NodeCmp's constructor validates the index (kd_tree.h 209). *)
Fixpoint MakeKdTree (fuel : nat) (index : nat) (l : list P) : outcome tree :=
  match l with
  | [] => Ok Null
  | _ =>
    match fuel with
    | O => UB
    | S f =>
      throw_unless (Nat.ltb index dim)
      (let k := Nat.div2 (length l) in
       let l' := nth_element index k l in
       match skipn k l' with
       | [] => UB
       | p :: rest =>
           let index' := Nat.modulo (index + 1) dim in
           obind (MakeKdTree f index' (firstn k l')) (fun lt =>
           obind (MakeKdTree f index' rest) (fun rt =>
           Ok (Node p index lt rt)))
       end)
    end
  end.

(** KDTreeBase constructors: kd_tree.h 253-271. *)
Definition KDTree (points : list P) : outcome tree :=
  match points with
  | [] => Throw
  | _ => MakeKdTree (length points) 0 points
  end.

(** details::SquaredDistance: kd_tree.h 186-201. *)
Definition SquaredDistance (a b : P) : Q :=
  fold_left (fun dist i => dist + (coord a i - coord b i) * (coord a i - coord b i)) (seq 0 dim) 0.

(** KDTreeBase::nearest_point (recursive): kd_tree.h 309-333.  [best] is the pair
    (nearest_neighbour_node, *nearest_neighbour_distance), [None] for the null node. *)
Fixpoint nearest (t : tree) (q : P) (index : nat) (tol : Q) (best : option (P * Q)) : option (P * Q) :=
  match t with
  | Null => best
  | Node p _ l r =>
      let d := SquaredDistance p q in
      let best1 := match best with
                   | None => (p, d)
                   | Some (p0, d0) => if Qltb d d0 then (p, d) else (p0, d0)
                   end in
      if Qltb (snd best1) tol then Some best1
      else
        let dx := coord p index - coord q index in
        let index' := Nat.modulo (index + 1) dim in
        let left_first := Qltb 0 dx in
        (* the recursive calls are spelled per branch to stay structural *)
        let best2 := if left_first then nearest l q index' tol (Some best1)
                     else nearest r q index' tol (Some best1) in
        match best2 with
        | None => None
        | Some (p2, d2) =>
            if Qleb d2 (dx * dx) then best2
            else if left_first then nearest r q index' tol best2
                 else nearest l q index' tol best2
        end
  end.

(** KDTreeBase::nearest_point(point, tolerance): kd_tree.h 289-296.  UB is the
    dereference of a null [best]. *)
Definition nearest_point (t : tree) (q : P) (tol : Q) : outcome P :=
  match t with
  | Null => Throw
  | _ => throw_unless (Qltb 0 tol)
           (match nearest t q 0 tol None with Some (p, _) => Ok p | None => UB end)
  end.

(** Nodes with regions. *)
Inductive rtree :=
| RNull
| RNode (p : P) (index : nat) (region : box) (l r : rtree).

Definition all_space_min : vec3 := V3 NInf NInf NInf.
Definition all_space_max : vec3 := V3 PInf PInf PInf.

(** Initialize3dRegions: kd_tree.h 160-180.  The parent's region, coordinate and index
    are arguments. *)
Fixpoint Initialize3dRegions (left : bool) (pregion : box) (pp : P) (pindex : nat) (t : tree) : outcome rtree :=
  match t with
  | Null => Ok RNull
  | Node p index l r =>
      let mn := if left then all_space_min else vset all_space_min pindex (Fin (coord pp pindex)) in
      let mx := if left then vset all_space_max pindex (Fin (coord pp pindex)) else all_space_max in
      obind (Box mn mx kTolerance) (fun half_space =>
      obind (BGetIntersection pregion half_space) (fun reg =>
      match reg with
      | None => Throw
      | Some region =>
          obind (Initialize3dRegions true region p index l) (fun l' =>
          obind (Initialize3dRegions false region p index r) (fun r' =>
          Ok (RNode p index region l' r')))
      end))
  end.

(** KDTree3D::InitializeRegions: kd_tree.h 425-433. *)
Definition InitializeRegions (t : tree) : outcome rtree :=
  match t with
  | Null => UB
  | Node p index l r =>
      obind (Box all_space_min all_space_max kTolerance) (fun region =>
      obind (Initialize3dRegions true region p index l) (fun l' =>
      obind (Initialize3dRegions false region p index r) (fun r' =>
      Ok (RNode p index region l' r'))))
  end.

(** KDTree3D constructors: kd_tree.h 389-406. *)
Definition KDTree3D (points : list P) : outcome rtree := obind (KDTree points) InitializeRegions.

Definition to_vec (p : P) : vec3 := V3 (Fin (coord p 0)) (Fin (coord p 1)) (Fin (coord p 2)).

(** KDTree3D::ReportPointsInSubTree: kd_tree.h 474-481. *)
Fixpoint ReportPointsInSubTree (t : rtree) : list P :=
  match t with
  | RNull => []
  | RNode p _ _ l r => p :: ReportPointsInSubTree l ++ ReportPointsInSubTree r
  end.

(** KDTree3D::RangeSearch: kd_tree.h 412-416 and 440-469; the result deque is
    returned instead of appended to. *)
Fixpoint RangeSearch (region : box) (t : rtree) : list P :=
  match t with
  | RNull => []
  | RNode p _ nregion l r =>
      let own := if BContains region (to_vec p) then [p] else [] in
      match l, r with
      | RNull, RNull => own
      | _, _ =>
          match Overlaps region nregion with
          | kContained => ReportPointsInSubTree t
          | kIntersected => own ++ RangeSearch region l ++ RangeSearch region r
          | kDisjointed => []
          end
      end
  end.
End KdTree.

Arguments Null {P}.
Arguments Node {P} p index l r.
Arguments RNull {P}.
Arguments RNode {P} p index region l r.
Arguments ReportPointsInSubTree {P} t.
