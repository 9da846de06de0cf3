(** Model of the mesh generation of src/maliput/utility/generate_obj.cc, lines 112-490, in
    the (s, r, h) frame of a lane: the faces handed to ToGeoFace, in order.
    Numbers are exact rationals.  A loop that runs out of fuel is [UB]; the theorems
    exclude it.  MALIPUT_DEMAND is [Throw]. *)
From Coq Require Import List QArith Qround Qminmax Bool Arith ZArith.
From Verif Require Import Base.
Import ListNotations.
Local Open Scope Q_scope.

(** api::RBounds, lane_data.h 354-394. *)
Record rbounds := mk_rb { rmin : Q; rmax : Q }.
(** What the functions below ask of an api::Lane.  [deviates g s0 step] is the test of
    generate_obj.cc 140-147: some of the three distances in space from [s0] to [s0 + step]
    differs from [step] by more than [g]. *)
Record lane := mk_lane { length_ : Q; lane_bounds : Q -> rbounds; segment_bounds : Q -> rbounds; deviates : Q -> Q -> Q -> bool }.

(** api::LanePosition and the vertices of SrhFace. *)
Definition srh := (Q * Q * Q)%type.
Definition face := list srh.
Definition vertex (elevation : Q -> Q -> Q) (s r : Q) : srh := (s, r, elevation s r).

(** A fuel for stepping [grid] at a time up to [x]. *)
Definition steps (x grid : Q) : nat := S (Z.to_nat (Qceiling (x / grid))).

(** The while loop of ComputeSampleStep, generate_obj.cc 127-160. *)
Fixpoint step_loop (fuel : nat) (l : lane) (s0 grid best : Q) : outcome Q :=
  match fuel with
  | O => UB
  | S fuel' =>
      let proposed := cmin (best * 2) (length_ l - s0) in
      if deviates l grid s0 proposed then Ok best
      else if Qltb (Qabs.Qabs (s0 + proposed - length_ l)) grid then Ok (cmax (cmin 0 proposed) (length_ l))
      else step_loop fuel' l s0 grid proposed
  end.
(** ComputeSampleStep, generate_obj.cc 112-164. *)
Definition ComputeSampleStep (l : lane) (s0 grid : Q) : outcome Q :=
  omap (fun best => cmin best (length_ l - s0)) (step_loop (S (steps (length_ l) grid)) l s0 grid (cmin grid (length_ l - s0))).

Definition bounds (l : lane) (use_segment_bounds : bool) (s : Q) : rbounds := if use_segment_bounds then segment_bounds l s else lane_bounds l s.

(** GenerateOptimizedRoadMesh, generate_obj.cc 170-197. *)
Definition two_triangles (l : lane) (seg : bool) (elevation : Q -> Q -> Q) (s0 s1 : Q) : list face :=
  let rb0 := bounds l seg s0 in let rb1 := bounds l seg s1 in
  [[vertex elevation s0 (rmax rb0); vertex elevation s0 (rmin rb0); vertex elevation s1 (rmax rb1)];
   [vertex elevation s0 (rmin rb0); vertex elevation s1 (rmin rb1); vertex elevation s1 (rmax rb1)]].
Fixpoint optimized_loop (fuel : nat) (l : lane) (grid : Q) (seg : bool) (elevation : Q -> Q -> Q) (s0 : Q) : outcome (list face) :=
  if Qltb s0 (length_ l) then
    match fuel with
    | O => UB
    | S fuel' =>
        obind (ComputeSampleStep l s0 grid) (fun inc =>
        obind (optimized_loop fuel' l grid seg elevation (s0 + inc)) (fun rest => Ok (two_triangles l seg elevation s0 (s0 + inc) ++ rest)))
    end
  else Ok [].
Definition GenerateOptimizedRoadMesh (l : lane) (grid : Q) (seg : bool) (elevation : Q -> Q -> Q) : outcome (list face) :=
  optimized_loop (S (steps (length_ l) grid)) l grid seg elevation 0.

(** The left side, generate_obj.cc 213-236. *)
Fixpoint left_loop (fuel : nat) (grid : Q) (elevation : Q -> Q -> Q) (s0 s1 max0 max1 r00 r10 : Q) : outcome (list face) :=
  if Qltb r00 max0 && Qltb r10 max1 then
    match fuel with
    | O => UB
    | S fuel' =>
        let r01 := cmin (r00 + grid) max0 in
        let r11 := cmin (r10 + grid) max1 in
        obind (left_loop fuel' grid elevation s0 s1 max0 max1 (r00 + grid) (r10 + grid)) (fun rest =>
        Ok ([vertex elevation s0 r00; vertex elevation s1 r10; vertex elevation s1 r11; vertex elevation s0 r01] :: rest))
    end
  else Ok [].
(** The right side, generate_obj.cc 237-260. *)
Fixpoint right_loop (fuel : nat) (grid : Q) (elevation : Q -> Q -> Q) (s0 s1 min0 min1 r00 r10 : Q) : outcome (list face) :=
  if Qltb min0 r00 && Qltb min1 r10 then
    match fuel with
    | O => UB
    | S fuel' =>
        let r01 := cmax (r00 - grid) min0 in
        let r11 := cmax (r10 - grid) min1 in
        obind (right_loop fuel' grid elevation s0 s1 min0 min1 (r00 - grid) (r10 - grid)) (fun rest =>
        Ok ([vertex elevation s0 r00; vertex elevation s0 r01; vertex elevation s1 r11; vertex elevation s1 r10] :: rest))
    end
  else Ok [].
(** s1 of a strip, generate_obj.cc 205-208 and 299-302. *)
Definition next_s (l : lane) (tol grid s0 : Q) : Q := if Qltb (length_ l - tol) (s0 + grid) then length_ l else s0 + grid.
(** GeneratePreciseRoadMesh, generate_obj.cc 199-262. *)
Fixpoint precise_loop (fuel : nat) (l : lane) (tol grid : Q) (seg : bool) (elevation : Q -> Q -> Q) (s0 : Q) : outcome (list face) :=
  if Qltb s0 (length_ l) then
    match fuel with
    | O => UB
    | S fuel' =>
        let s1 := next_s l tol grid s0 in
        let rb0 := bounds l seg s0 in
        let rb1 := bounds l seg s1 in
        obind (left_loop (steps (rmax rb0) grid) grid elevation s0 s1 (rmax rb0) (rmax rb1) 0 0) (fun left =>
        obind (right_loop (steps (- rmin rb0) grid) grid elevation s0 s1 (rmin rb0) (rmin rb1) 0 0) (fun right =>
        obind (precise_loop fuel' l tol grid seg elevation s1) (fun rest => Ok (left ++ right ++ rest))))
    end
  else Ok [].
Definition GeneratePreciseRoadMesh (l : lane) (tol grid : Q) (seg : bool) (elevation : Q -> Q -> Q) : outcome (list face) :=
  precise_loop (S (steps (length_ l) grid)) l tol grid seg elevation 0.

(** StripeLaneBounds, generate_obj.cc 294-326. *)
Definition stripe (s0 s1 r0 r1 half h : Q) : face := [(s0, r0 - half, h); (s1, r1 - half, h); (s1, r1 + half, h); (s0, r0 + half, h)].
Fixpoint stripe_loop (fuel : nat) (l : lane) (tol grid h half s0 : Q) : outcome (list face) :=
  if Qltb s0 (length_ l) then
    match fuel with
    | O => UB
    | S fuel' =>
        let s1 := next_s l tol grid s0 in
        obind (stripe_loop fuel' l tol grid h half s1) (fun rest =>
        Ok (stripe s0 s1 (rmax (lane_bounds l s0)) (rmax (lane_bounds l s1)) half h :: stripe s0 s1 (rmin (lane_bounds l s0)) (rmin (lane_bounds l s1)) half h :: rest))
    end
  else Ok [].
Definition StripeLaneBounds (l : lane) (tol grid h width : Q) : outcome (list face) :=
  stripe_loop (S (steps (length_ l) grid)) l tol grid h ((1 # 2) * width) 0.

(** The rows of DrawLaneArrow, generate_obj.cc 362-424; [sign] is 1 on the left and -1 on
    the right, whose vertices go round the other way. *)
Definition left_cell (s0 s1 r0 r1 h : Q) : face := [(s0, r0, h); (s1, r0, h); (s1, r1, h); (s0, r1, h)].
Definition right_cell (s0 s1 r0 r1 h : Q) : face := [(s0, r0, h); (s0, r1, h); (s1, r1, h); (s1, r0, h)].
Definition left_tip (s0 s1 r0 r1 h : Q) : face := [(s0, r0, h); (s1, r0, h); (s0, r1, h)].
Definition right_tip (s0 s1 r0 r1 h : Q) : face := [(s0, r0, h); (s0, r1, h); (s1, r0, h)].
Fixpoint row_loop (cell tip : Q -> Q -> Q -> Q -> Q -> face) (n : nat) (s0 s1 r unit_ h : Q) : list face :=
  match n with
  | O => [tip s0 s1 r (r + unit_) h]
  | S n' => cell s0 s1 r (r + unit_) h :: row_loop cell tip n' s0 s1 (r + unit_) unit_ h
  end.
(** [si] counts from 0; the row [si] has num_units - si units, of which the last is a tip. *)
Fixpoint arrow_loop (n si : nat) (s_offset s_unit rl_unit rr_unit h : Q) : list face :=
  match n with
  | O => []
  | S n' =>
      let s0 := s_offset + inject_Z (Z.of_nat si) * s_unit in
      let s1 := s_offset + (inject_Z (Z.of_nat si) + 1) * s_unit in
      row_loop left_cell left_tip n' s0 s1 0 rl_unit h ++ row_loop right_cell right_tip n' s0 s1 0 (- rr_unit) h ++
      arrow_loop n' (S si) s_offset s_unit rl_unit rr_unit h
  end.
(** DrawLaneArrow, generate_obj.cc 339-425. *)
Definition DrawLaneArrow (l : lane) (grid s_offset s_size h : Q) : outcome (list face) :=
  throw_unless (Qleb 0 s_offset) (throw_unless (Qleb (s_offset + s_size) (length_ l)) (
  let rb0 := lane_bounds l s_offset in
  let rl_size := rmax rb0 * (8 # 10) in
  let rr_size := - rmin rb0 * (8 # 10) in
  let num_units := Z.max (Qceiling (s_size / grid)) (Z.max (Qceiling (rl_size / grid)) (Qceiling (rr_size / grid))) in
  throw_unless (Z.leb 1 num_units) (
  Ok (arrow_loop (Z.to_nat num_units) 0 s_offset (s_size / inject_Z num_units) (rl_size / inject_Z num_units) (rr_size / inject_Z num_units) h)))).
(** MarkLaneEnds, generate_obj.cc 437-459. *)
Definition MarkLaneEnds (l : lane) (nudge grid h : Q) : outcome (list face) :=
  let max_length := (3 # 10) * length_ l in
  let start_rb := lane_bounds l 0 in
  let start_size := cmin max_length (rmax start_rb - rmin start_rb) in
  let finish_rb := lane_bounds l (length_ l) in
  let finish_size := cmin max_length (rmax finish_rb - rmin finish_rb) in
  obind (if Qltb (nudge + start_size) (length_ l) && Qltb nudge start_size then DrawLaneArrow l grid (0 + nudge) start_size h else Ok []) (fun a =>
  obind (if Qltb 0 (length_ l - nudge - finish_size) && Qltb nudge finish_size then DrawLaneArrow l grid (length_ l - finish_size - nudge) finish_size h else Ok []) (fun b =>
  Ok (a ++ b))).

(** PickGridUnit, generate_obj.cc 471-490. *)
Definition PickGridUnit (l : lane) (max_size min_resolution tol : Q) : Q :=
  let rb0 := lane_bounds l 0 in
  let width0 := cmax (rmax rb0 - rmin rb0) tol in
  let rb1 := lane_bounds l (length_ l) in
  let width1 := cmax (rmax rb1 - rmin rb1) tol in
  let len := cmax (length_ l) tol in
  cmax (cmin (cmin (cmin max_size (width0 / min_resolution)) (width1 / min_resolution)) (len / min_resolution)) tol.
