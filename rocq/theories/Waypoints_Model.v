(** Model of RoadGeometry::DoSampleAheadWaypoints, src/maliput/api/road_geometry.cc
    213-246.  Doubles are exact rationals.  A waypoint is the (lane, s) pair handed
    to [Lane::ToInertialPosition] (r = h = 0); the lane's own mapping to an inertial
    position is not modelled. *)
From Coq Require Import List QArith Qabs Bool Arith.
From Verif Require Import Base Regions_Model Positions_Model.
Import ListNotations.
Open Scope Q_scope.

(** The sampling loop, lines 233-236; returns the values pushed and the final
    [step_accumulator].  Running out of fuel is [UB] (shown impossible). *)
Fixpoint step_loop (fuel : nat) (acc to rate : Q) : outcome (list Q * Q) :=
  if Qleb acc to then
    match fuel with
    | O => UB
    | S f => omap (fun p => (acc :: fst p, snd p)) (step_loop f (acc + rate) to rate)
    end
  else Ok ([], acc).

Section Sample.
Variable known : nat -> bool.            (* ById().GetLane(id) != nullptr *)
Variable linear_tolerance : Q.

(** The loop over the ranges, lines 225-238, then lines 239-243. *)
Fixpoint sample_ranges (rate : Q) (rs : list lsrange) (prev : Q) : outcome (list (nat * Q) * Q) :=
  match rs with
  | [] => Ok ([], prev)
  | r :: rs' =>
      throw_unless (known (lane_id r))
        (let acc := prev + s0 (s_range r) + rate in
         obind (step_loop (loop_fuel acc (s1 (s_range r)) rate) acc (s1 (s_range r)) rate) (fun p =>
         obind (sample_ranges rate rs' (snd p - s1 (s_range r) - rate)) (fun q =>
           Ok (map (fun s => (lane_id r, s)) (fst p) ++ fst q, snd q))))
  end.

(** DoSampleAheadWaypoints, lines 213-246. *)
Definition SampleAheadWaypoints (rs : list lsrange) (rate_in : Q) : outcome (list (nat * Q)) :=
  throw_unless (Qltb 0 rate_in)
    (let rate := cmax linear_tolerance (cmin rate_in (route_length rs)) in
     match rs with
     | [] => UB                                              (* ranges.front() *)
     | first :: _ =>
         throw_unless (known (lane_id first))
           (obind (sample_ranges rate rs 0) (fun p =>
              let body := (lane_id first, s0 (s_range first)) :: fst p in
              if Qltb linear_tolerance (Qabs (snd p)) then
                let lst := last rs first in
                throw_unless (known (lane_id lst))
                  (Ok (body ++ [(lane_id lst, s1 (s_range lst))]))
              else Ok body))
     end).
End Sample.
