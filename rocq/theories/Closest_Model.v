(** Models, on doubles, of the searches for road positions: IsNewRoadPositionResultCloser
    (src/maliput/geometry_base/strategy_base.cc), BruteForceStrategy (src/maliput/geometry_base/brute_force_strategy.cc)
    and KDTreeStrategy (src/maliput/geometry_base/kd_tree_strategy.cc). *)
From Coq Require Import List Bool Arith ZArith.
From Coq Require Import Floats.SpecFloat.
From Verif Require Import Base Binary64 KdTree_Model Doubles_Model KdFloat_Model KdRange_Model.
Import ListNotations.

(** A RoadPositionResult, include/maliput/api/lane_data.h 353-365, by its lane, coordinates s and r and distance. *)
Record fresult := mk_fresult { fr_lane : nat; fr_s : double; fr_r : double; fr_dist : double }.

(** The literal 1e-12, strategy_base.cc 41 and 44: the double nearest to it. *)
Definition literal_eps : double := fdiv (fint 1) (fint (10 ^ 12)).

Section Closest.
(** Lane::lane_bounds(s): minimum and maximum. *)
Variable lane_bounds : nat -> double -> double * double.
(** Lane::ToLanePosition of the query point. *)
Variable to_lane : nat -> fresult.

(** is_within_lane_bounds: strategy_base.cc 48-50 and 57-64. *)
Definition fwithin (x : fresult) : bool :=
  let b := lane_bounds (fr_lane x) (fr_s x) in fle (fst b) (fr_r x) && flt (fr_r x) (snd b).
(** IsNewRoadPositionResultCloser: strategy_base.cc 38-75. *)
Definition fcloser (new cur : fresult) : bool :=
  let delta := fsub (fr_dist new) (fr_dist cur) in
  if flt delta (fneg literal_eps) then true
  else if fle literal_eps delta then false
  else
    let n := fwithin new in
    let c := fwithin cur in
    if (n && c) || (negb n && negb c) then flt (fabs (fr_r new)) (fabs (fr_r cur))
    else if n && negb c then true else false.
(** The selection loop: brute_force_strategy.cc 70-74, kd_tree_strategy.cc 100-109. *)
Definition fpick (init : fresult) (l : list fresult) : fresult :=
  fold_left (fun cur new => if fcloser new cur then new else cur) l init.

(** radius == std::numeric_limits<double>::infinity(). *)
Definition is_infinite (r : double) : bool := match r with S754_infinity false => true | _ => false end.
(** BruteForceStrategy::DoFindRoadPositions: brute_force_strategy.cc 79-107, and
    BruteForceFindRoadPositionsStrategy: brute_force_find_road_positions_strategy.cc 42-69.  Junctions, their segments,
    their lanes. *)
Definition fFindRoadPositions (rg : list (list (list nat))) (radius : double) : outcome (list fresult) :=
  throw_unless (fle fzero radius)
  (Ok (fold_left (fun acc junction =>
         fold_left (fun acc segment =>
           fold_left (fun acc lane =>
             let x := to_lane lane in
             if is_infinite radius || fle (fr_dist x) radius then acc ++ [x] else acc) segment acc)
           junction acc)
       rg [])).
(** BruteForceStrategy::DoToRoadPosition: brute_force_strategy.cc 45-77.  A hint is the lane of a RoadPosition,
    [Some None] one with a null lane. *)
Definition fToRoadPosition (rg : list (list (list nat))) (linear_tolerance : double) (hint : option (option nat)) : outcome fresult :=
  match hint with
  | Some (Some l) => Ok (to_lane l)
  | Some None => Throw
  | None =>
      obind (fFindRoadPositions rg (S754_infinity false)) (fun all =>
      match all with
      | [] => Throw
      | _ =>
          let near := filter (fun x => fle (fr_dist x) linear_tolerance) all in
          let filtered := match near with [] => all | _ => near end in
          match filtered with
          | [] => UB
          | x0 :: _ => Ok (fpick x0 filtered)
          end
      end)
  end.

(** ** KDTreeStrategy *)
(** MaliputPoint, kd_tree_strategy.h 54-75: a vector and, for the sampled points, a lane. *)
Definition mpoint : Type := (vec * option nat)%type.
Definition mpoint_coord (m : mpoint) (i : nat) : double :=
  match i with O => vx (fst m) | 1%nat => vy (fst m) | _ => vz (fst m) end.
(** The nodes without their regions: the base class KDTreeBase looks at no region. *)
Fixpoint without_regions {P} (t : frtree P) : tree P :=
  match t with FNull => Null | FNode p i _ l r => Node p i (without_regions l) (without_regions r) end.
(** get_lane().value() for all points; std::bad_optional_access is thrown without a lane. *)
Fixpoint lanes_at (l : list mpoint) : outcome (list nat) :=
  match l with
  | [] => Ok []
  | (_, Some n) :: l' => omap (cons n) (lanes_at l')
  | (_, None) :: _ => Throw
  end.
(** ClosestLanes: kd_tree_strategy.cc 113-126. *)
Definition fClosestLanes (t : frtree mpoint) (p : vec) (half_edge_length : double) : outcome (list nat) :=
  let h := half_edge_length in
  obind (AxisAlignedBox (mk_vec (fsub (vx p) h) (fsub (vy p) h) (fsub (vz p) h))
                        (mk_vec (fadd (vx p) h) (fadd (vy p) h) (fadd (vz p) h)) default_tolerance)
    (fun region => lanes_at (fRangeSearch mpoint mpoint_coord region t)).
(** DoFindRoadPositions: kd_tree_strategy.cc 66-79; lanes are not null. *)
Definition fKDFindRoadPositions (t : frtree mpoint) (p : vec) (radius : double) : outcome (list fresult) :=
  obind (fClosestLanes t p radius) (fun lanes => Ok (filter (fun x => fle (fr_dist x) radius) (map to_lane lanes))).
(** Vector3::operator- and norm: src/maliput/math/vector.cc 113-115 and 195-199. *)
Definition distance_to (p m : vec) : double :=
  let x := fsub (vx p) (vx m) in let y := fsub (vy p) (vy m) in let z := fsub (vz p) (vz m) in
  fsqrt (fadd (fadd (fadd fzero (fmul x x)) (fmul y y)) (fmul z z)).
(** ClosestLane: kd_tree_strategy.cc 81-111. *)
Definition fClosestLane (t : frtree mpoint) (sampling_step : double) (p : vec) : outcome fresult :=
  obind (fnearest_point_default mpoint mpoint_coord 3 (without_regions t) (p, None)) (fun m =>
  obind (fClosestLanes t p (fadd (distance_to p (fst m)) (fmul (fint 2) sampling_step))) (fun lanes =>
  match snd m with
  | None => Throw
  | Some l => Ok (fpick (to_lane l) (map to_lane lanes))
  end)).
(** DoToRoadPosition: kd_tree_strategy.cc 56-64. *)
Definition fKDToRoadPosition (t : frtree mpoint) (sampling_step : double) (p : vec) (hint : option (option nat)) : outcome fresult :=
  match hint with
  | Some (Some l) => Ok (to_lane l)
  | Some None => Throw
  | None => fClosestLane t sampling_step p
  end.
End Closest.
