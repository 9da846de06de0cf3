(** Model of the road position queries: src/maliput/geometry_base/
    {strategy_base,brute_force_strategy,brute_force_find_road_positions_strategy,
     filter_positions,kd_tree_strategy}.cc.
    One query position is fixed; the backend's lanes are oracles.  Simplification:
    a RoadPositionResult keeps lane, s, r and distance; h and nearest_position are
    copied through by the code and never inspected. *)
From Coq Require Import List QArith Qround Qabs Bool Arith ZArith.
From Verif Require Import Base KdTree_Model.
Import ListNotations.
Open Scope Q_scope.

(** api::RoadPositionResult: include/maliput/api/lane_data.h. *)
Record result := mk_result { r_lane : nat; r_s : Q; r_r : Q; r_dist : Q }.

(** The literal 1e-12 of strategy_base.cc 41 and 44. *)
Definition eps : Q := 1 # 1000000000000.

Section Positions.
(** lane->lane_bounds(s): (min, max). *)
Variable lane_bounds : nat -> Q -> Q * Q.
(** lane->ToLanePosition(inertial_position), tagged with the lane. *)
Variable to_lane : nat -> result.

(** is_within_lane_bounds: strategy_base.cc 48-50. *)
Definition within_bounds (x : result) : bool :=
  let b := lane_bounds (r_lane x) (r_s x) in
  Qleb (fst b) (r_r x) && Qltb (r_r x) (snd b).

(** IsNewRoadPositionResultCloser: strategy_base.cc 38-75. *)
Definition IsCloser (new cur : result) : bool :=
  let delta := r_dist new - r_dist cur in
  if Qltb delta (- eps) then true
  else if Qleb eps delta then false
  else
    let n := within_bounds new in
    let c := within_bounds cur in
    if (n && c) || (negb n && negb c) then Qltb (Qabs (r_r new)) (Qabs (r_r cur))
    else if n && negb c then true else false.

(** A road geometry seen by the nested loops: junctions, their segments, their lanes. *)
Definition geometry := list (list (list nat)).

(** A search radius: [None] is +infinity. *)
Definition in_radius (radius : option Q) (x : result) : bool :=
  match radius with None => true | Some r => Qleb (r_dist x) r end.

(** BruteForceStrategy::DoFindRoadPositions: brute_force_strategy.cc 79-107, and
    BruteForceFindRoadPositionsStrategy (same body):
    brute_force_find_road_positions_strategy.cc 42-69. *)
Definition FindRoadPositions (rg : geometry) (radius : option Q) : outcome (list result) :=
  throw_unless (match radius with None => true | Some r => Qleb 0 r end)
  (Ok (fold_left (fun acc junction =>
         fold_left (fun acc segment =>
           fold_left (fun acc lane =>
             let x := to_lane lane in
             if in_radius radius x then acc ++ [x] else acc) segment acc)
           junction acc)
       rg [])).

(** FilterRoadPositionResults: filter_positions.cc 38-44. *)
Definition FilterRoadPositionResults (l : list result) (f : result -> bool) : list result := filter f l.

(** The selection loop: brute_force_strategy.cc 70-74, kd_tree_strategy.cc 100-109. *)
Definition pick (init : result) (l : list result) : result :=
  fold_left (fun cur new => if IsCloser new cur then new else cur) l init.

(** BruteForceStrategy::DoToRoadPosition: brute_force_strategy.cc 45-77.  [hint] is the
    hinted lane; a null hint lane throws in the code and is not modelled. *)
Definition ToRoadPosition (rg : geometry) (linear_tolerance : Q) (hint : option nat) : outcome result :=
  match hint with
  | Some l => Ok (to_lane l)
  | None =>
      obind (FindRoadPositions rg None) (fun all =>
      match all with
      | [] => Throw
      | _ =>
          let near := FilterRoadPositionResults all (fun x => Qleb (r_dist x) linear_tolerance) in
          let filtered := match near with [] => all | _ => near end in
          match filtered with
          | [] => UB
          | x0 :: _ => Ok (pick x0 filtered)
          end
      end)
  end.

(** ** KDTreeStrategy *)
(** lane->length(), lane->ToInertialPosition({s, r, 0}). *)
Variable lane_length : nat -> Q.
Variable to_inertial : nat -> Q -> Q -> Q * Q * Q.

(** for (double x = from; x <= to; x += step): the visited values; [UB] marks the
    exhaustion of [fuel]. *)
Fixpoint loop_values (fuel : nat) (x to step : Q) : outcome (list Q) :=
  if Qleb x to then
    match fuel with
    | O => UB
    | S f => omap (cons x) (loop_values f (x + step) to step)
    end
  else Ok [].

(** Number of iterations a fuelled loop needs for a positive step. *)
Definition loop_fuel (from to step : Q) : nat := S (Z.to_nat (Qfloor ((to - from) / step))).

Definition mpoint : Type := (Q * Q * Q) * nat.
Definition mcoord (p : mpoint) (i : nat) : Q :=
  match fst p, i with (x, _, _), O => x | (_, y, _), 1%nat => y | (_, _, z), _ => z end.

Fixpoint oconcat {A} (l : list (outcome (list A))) : outcome (list A) :=
  match l with
  | [] => Ok []
  | x :: l' => obind x (fun a => omap (app a) (oconcat l'))
  end.

(** The constructor's sampling loops: kd_tree_strategy.cc 45-54. *)
Definition sample_lane (step : Q) (lane : nat) : outcome (list mpoint) :=
  obind (loop_values (loop_fuel 0 (lane_length lane) step) 0 (lane_length lane) step) (fun ss =>
    oconcat (map (fun s =>
      let b := lane_bounds lane s in
      omap (map (fun r => (to_inertial lane s r, lane)))
           (loop_values (loop_fuel (fst b) (snd b) step) (fst b) (snd b) step)) ss)).

Definition sample_points (lanes : list nat) (step : Q) : outcome (list mpoint) :=
  oconcat (map (sample_lane step) lanes).

Variable nth_element : nat -> nat -> list mpoint -> list mpoint.

(** KDTreeStrategy::KDTreeStrategy: kd_tree_strategy.cc 41-56.  [lanes] is the content
    of ById().GetLanes() in its (unspecified) iteration order. *)
Definition KDTreeStrategy (lanes : list nat) (step : Q) : outcome (rtree mpoint) :=
  obind (sample_points lanes step) (KDTree3D mpoint mcoord 3 nth_element).

(** KDTreeStrategy::ClosestLanes: kd_tree_strategy.cc 113-125. *)
Definition ext_sub (x : Q) (r : ext) : ext := match r with Fin q => Fin (x - q) | PInf => NInf | NInf => PInf end.
Definition ext_add (x : Q) (r : ext) : ext := match r with Fin q => Fin (x + q) | _ => r end.
Definition ClosestLanes (t : rtree mpoint) (p : Q * Q * Q) (half_edge : ext) : outcome (list nat) :=
  let '(x, y, z) := p in
  obind (Box (V3 (ext_sub x half_edge) (ext_sub y half_edge) (ext_sub z half_edge))
             (V3 (ext_add x half_edge) (ext_add y half_edge) (ext_add z half_edge)) kTolerance)
        (fun region => Ok (map snd (RangeSearch mpoint mcoord region t))).

(** KDTreeStrategy::DoFindRoadPositions: kd_tree_strategy.cc 68-81. *)
Definition KDFindRoadPositions (t : rtree mpoint) (p : Q * Q * Q) (radius : option Q) : outcome (list result) :=
  obind (ClosestLanes t p (match radius with Some r => Fin r | None => PInf end)) (fun lanes =>
    Ok (filter (in_radius radius) (map to_lane lanes))).

(** KDTreeStrategy::ClosestLane: kd_tree_strategy.cc 83-111, and DoToRoadPosition 58-66.
    [norm] is the Euclidean norm of the difference of two points; the query's
    nearest_point tolerance numeric_limits<double>::min() is [tiny]. *)
Variable norm : Q * Q * Q -> Q * Q * Q -> Q.
Fixpoint erase (t : rtree mpoint) : tree mpoint :=
  match t with RNull => Null | RNode p i _ l r => Node p i (erase l) (erase r) end.
Definition ClosestLane (t : rtree mpoint) (tiny step : Q) (p : Q * Q * Q) : outcome result :=
  obind (nearest_point mpoint mcoord 3 (erase t) (p, O) tiny) (fun mp =>
  obind (ClosestLanes t p (Fin (norm p (fst mp) + 2 * step))) (fun lanes =>
  Ok (pick (to_lane (snd mp)) (map to_lane lanes)))).
Definition KDToRoadPosition (t : rtree mpoint) (tiny step : Q) (p : Q * Q * Q) (hint : option nat) : outcome result :=
  match hint with
  | Some l => Ok (to_lane l)
  | None => ClosestLane t tiny step p
  end.
End Positions.
