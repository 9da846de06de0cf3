(** Models of src/maliput/routing/phase.cc and src/maliput/routing/route.cc.
    Simplifications: doubles are exact rationals; lanes are natural numbers standing for
    pointer and id; error messages are not modelled, only whether there is one; the
    backend (geometry, adjacency, branch points) is a record of functions. *)
From Coq Require Import List Arith Bool QArith Qabs.
From Verif Require Import Base Regions_Model Positions_Model.
Import ListNotations.
Open Scope Q_scope.

(** math::Vector3, api::LanePosition, api::RoadPosition. *)
Record vec := mk_vec { vx : Q; vy : Q; vz : Q }.
Record lpos := mk_lpos { ps : Q; pr : Q; ph : Q }.
Record rpos := mk_rpos { at_lane : nat; at_pos : lpos }.

(** What the code asks of the road network. *)
Record network := mk_net {
  len : nat -> option Q;                      (* ById().GetLane(id), then length() *)
  to_left : nat -> option nat;
  to_right : nat -> option nat;
  ongoing : nat -> bool -> list (nat * bool); (* GetOngoingBranches; false is kStart *)
  inertial : nat -> lpos -> vec;              (* ToInertialPosition *)
  s_hat : nat -> lpos -> vec;                 (* GetOrientation applied to (1,0,0) *)
  h_hat : nat -> lpos -> vec;                 (* and to (0,0,1) *)
  nearest : nat -> vec -> lpos * vec * Q;     (* ToLanePosition *)
  distance : vec -> vec -> Q;
  bounds : nat -> Q -> Q * Q;
  tolerance : Q }.                            (* linear_tolerance() *)

(** routing::Phase: include/maliput/routing/phase.h. *)
Record phase := mk_phase { ph_tol : Q; ph_starts : list rpos; ph_ends : list rpos; ph_ranges : list lsrange }.

Definition contains (tol : Q) (a b : lsrange) : bool :=
  match LContains a b tol with Ok c => c | _ => false end.
Definition opt_is (o : option nat) (l : nat) : bool := match o with Some x => Nat.eqb x l | None => false end.

Section Net.
Variable net : network.

(** ValidatePositionIsInLaneSRanges: phase.cc 62-74.  The construction of
    SRange(s, s) throws for s < 0, for a range of the same lane. *)
Fixpoint ValidatePosition (p : rpos) (l : list lsrange) (tol : Q) : outcome bool :=
  match l with
  | [] => Ok false
  | x :: l' =>
      if Nat.eqb (at_lane p) (lane_id x)
      then obind (SRange (ps (at_pos p)) (ps (at_pos p))) (fun o =>
           obind (Contains (s_range x) o tol) (fun c => if c : bool then Ok true else ValidatePosition p l' tol))
      else ValidatePosition p l' tol
  end.
Fixpoint all_ok {A} (f : A -> outcome bool) (l : list A) : outcome bool :=
  match l with [] => Ok true | x :: l' => obind (f x) (fun b => if b : bool then all_ok f l' else Ok false) end.
(** ValidateLaneSRangeIsInRoadNetwork: phase.cc 45-49. *)
Definition range_in_network (tol : Q) (x : lsrange) : outcome bool :=
  match len net (lane_id x) with
  | None => Ok false
  | Some l => obind (SRange 0 l) (fun whole => Contains whole (s_range x) tol)
  end.
(** ValidateLaneSRangesAreAdjacent: phase.cc 52-58. *)
Definition ranges_adjacent (a b : lsrange) : bool :=
  (opt_is (to_left net (lane_id a)) (lane_id b) && opt_is (to_right net (lane_id b)) (lane_id a))
  || (opt_is (to_left net (lane_id b)) (lane_id a) && opt_is (to_right net (lane_id a)) (lane_id b)).
Fixpoint all_adjacent (l : list lsrange) : bool :=
  match l with a :: (b :: _) as l' => ranges_adjacent a b && all_adjacent l' | _ => true end.
Definition nonempty {A} (l : list A) : bool := match l with [] => false | _ => true end.
(** Phase::Phase: phase.cc 76-118. *)
Definition Phase (tol : Q) (starts ends : list rpos) (ranges : list lsrange) : outcome phase :=
  throw_unless (Qleb 0 tol) (
  throw_unless (nonempty starts) (
  throw_unless (nonempty ends) (
  throw_unless (nonempty ranges) (
  obind (all_ok (range_in_network tol) ranges) (fun a => throw_unless a (
  obind (all_ok (fun p => ValidatePosition p ranges tol) starts) (fun b => throw_unless b (
  obind (all_ok (fun p => ValidatePosition p ranges tol) ends) (fun c => throw_unless c (
  throw_unless (all_adjacent ranges) (Ok (mk_phase tol starts ends ranges)))))))))))).

(** PhasePositionResult. *)
Record ppos := mk_ppos { pp_index : nat; pp_pos : lpos; pp_near : vec; pp_dist : Q }.

(** The candidate of one range: phase.cc 125-145. *)
Definition candidate (tol : Q) (v : vec) (x : lsrange) : outcome (rpos * vec * Q) :=
  let '(lp, near, d) := nearest net (lane_id x) v in
  obind (ValidatePosition (mk_rpos (lane_id x) lp) [x] tol) (fun inside =>
  if inside : bool then Ok (mk_rpos (lane_id x) lp, near, d)
  else
    let r := s_range x in
    let s := if Qleb (Qabs (ps lp - s0 r)) (Qabs (ps lp - s1 r)) then s0 r else s1 r in
    let at_s := mk_lpos s 0 0 in
    let q := inertial net (lane_id x) at_s in
    Ok (mk_rpos (lane_id x) at_s, q, distance net q v)).
Fixpoint candidates (tol : Q) (v : vec) (l : list lsrange) : outcome (list (rpos * vec * Q)) :=
  match l with [] => Ok [] | x :: l' => obind (candidate tol v x) (fun c => omap (cons c) (candidates tol v l')) end.

(** The comparison argument: RoadPositionResult seen by IsNewRoadPositionResultCloser. *)
Definition as_result (c : rpos * vec * Q) : result :=
  let '(p, _, d) := c in mk_result (at_lane p) (ps (at_pos p)) (pr (at_pos p)) d.
(** The selection loops over indices: phase.cc 147-153 and route.cc 82-88. *)
Fixpoint best_from {A} (f : A -> result) (best : nat * A) (i : nat) (l : list A) : nat * A :=
  match l with
  | [] => best
  | x :: l' => best_from f (if IsCloser (bounds net) (f x) (f (snd best)) then (i, x) else best) (S i) l'
  end.

(** Phase::FindPhasePosition(InertialPosition): phase.cc 120-159. *)
Definition FindPhasePositionI (p : phase) (v : vec) : outcome ppos :=
  obind (candidates (ph_tol p) v (ph_ranges p)) (fun cs =>
  match cs with
  | [] => UB
  | c :: cs' =>
      let '(i, (rp, near, d)) := best_from as_result (0%nat, c) 1 cs' in
      Ok (mk_ppos i (at_pos rp) near d)
  end).
Fixpoint find_index {A} (f : A -> bool) (l : list A) : nat :=
  match l with [] => O | x :: l' => if f x then O else S (find_index f l') end.
(** Phase::FindPhasePosition(RoadPosition): phase.cc 161-176. *)
Definition FindPhasePositionR (p : phase) (q : rpos) : outcome ppos :=
  obind (ValidatePosition q (ph_ranges p) (ph_tol p)) (fun inside =>
  if inside : bool then
    let i := find_index (fun x => Nat.eqb (lane_id x) (at_lane q)) (ph_ranges p) in
    let v := inertial net (at_lane q) (mk_lpos (ps (at_pos q)) 0 0) in
    let '(lp, near, d) := nearest net (at_lane q) v in
    Ok (mk_ppos i lp near d)
  else FindPhasePositionI p (inertial net (at_lane q) (at_pos q))).

(** ** Route *)
Definition route := list phase.
(** Route::Route: route.cc 46-59.  The map lane_id_to_indices_ is [indices_of] below. *)
Definition Route (phases : list phase) : outcome route := throw_unless (nonempty phases) (Ok phases).

Definition idx := (nat * nat)%type.
Fixpoint number {A} (i : nat) (l : list A) : list (nat * A) := match l with [] => [] | x :: l' => (i, x) :: number (S i) l' end.
Definition indexed (r : route) : list (idx * lsrange) :=
  flat_map (fun pi => map (fun jx => ((fst pi, fst jx), snd jx)) (number 0 (ph_ranges (snd pi)))) (number 0 r).
(** lane_id_to_indices_[lane]: route.cc 52-58. *)
Definition indices_of (r : route) (lane : nat) : list (idx * lsrange) :=
  filter (fun ix => Nat.eqb (lane_id (snd ix)) lane) (indexed r).
(** Route::FindLaneSRangeIndex: route.cc 305-317. *)
Definition FindLaneSRangeIndex (r : route) (x : lsrange) : option idx :=
  match find (fun ix => contains (tolerance net) (snd ix) x) (indices_of r (lane_id x)) with
  | Some ix => Some (fst ix)
  | None => None
  end.
(** Route::GetLaneSRange: route.h 158-160. *)
Definition GetLaneSRange (r : route) (p i : nat) : outcome lsrange :=
  match nth_error r p with
  | None => Throw
  | Some x => match nth_error (ph_ranges x) i with None => Throw | Some y => Ok y end
  end.

Inductive relative := RLeft | RCenter | RRight.
Definition vsub (a b : vec) : vec := mk_vec (vx a - vx b) (vy a - vy b) (vz a - vz b).
Definition dot (a b : vec) : Q := vx a * vx b + vy a * vy b + vz a * vz b.
Definition cross (a b : vec) : vec :=
  mk_vec (vy a * vz b - vz a * vy b) (vz a * vx b - vx a * vz b) (vx a * vy b - vy a * vx b).
(** ComputeRelativePosition: route.cc 113-132.  The norm is compared through its square
    (tolerance >= 0) and [b_to_a] is not normalized: neither changes a comparison. *)
Definition ComputeRelativePosition (a b : rpos) : relative :=
  let d := vsub (inertial net (at_lane b) (at_pos b)) (inertial net (at_lane a) (at_pos a)) in
  if Qleb (dot d d) (tolerance net * tolerance net) then RCenter
  else if Qltb 0 (dot (cross (s_hat net (at_lane a) (at_pos a)) d) (h_hat net (at_lane a) (at_pos a))) then RLeft else RRight.

Inductive relation :=
  | kAdjacentLeft | kAdjacentRight | kLeft | kRight | kSucceedingStraight | kSucceedingLeft | kSucceedingRight
  | kPrecedingStraight | kPrecedingLeft | kPrecedingRight | kCoincident | kUnrelated | kUnknown.

Definition range_start (x : lsrange) : rpos := mk_rpos (lane_id x) (mk_lpos (s0 (s_range x)) 0 0).
Definition range_end (x : lsrange) : rpos := mk_rpos (lane_id x) (mk_lpos (s1 (s_range x)) 0 0).
Definition at_index (r : route) (i : idx) : outcome lsrange :=
  match nth_error r (fst i) with
  | None => UB
  | Some x => match nth_error (ph_ranges x) (snd i) with None => UB | Some y => Ok y end
  end.
(** Route::ComputeLaneSRangeRelation: route.cc 136-206.  [index_b->lane_s_range - 1] and
    [index_b->phase - 1] wrap around at 0 in the code and are then never matched. *)
Definition ComputeLaneSRangeRelation (r : route) (a b : lsrange) : outcome relation :=
  match FindLaneSRangeIndex r a, FindLaneSRangeIndex r b with
  | Some (pa, ia), Some (pb, ib) =>
      if Nat.ltb (pb + 1) pa || Nat.ltb (pa + 1) pb then Ok kUnrelated
      else if Nat.eqb pa pb then
        Ok (if Nat.eqb ia ib then kCoincident
            else if Nat.eqb ia (ib + 1) then kAdjacentRight
            else if Nat.ltb (ib + 1) ia then kRight
            else if Nat.eqb (ia + 1) ib then kAdjacentLeft
            else kLeft)
      else if Nat.eqb (pa + 1) pb then
        obind (at_index r (pa, ia)) (fun x => obind (at_index r (pb, ib)) (fun y =>
        Ok (match ComputeRelativePosition (range_end x) (range_start y) with
            | RLeft => kSucceedingLeft | RCenter => kSucceedingStraight | RRight => kSucceedingRight end)))
      else
        obind (at_index r (pa, ia)) (fun x => obind (at_index r (pb, ib)) (fun y =>
        Ok (match ComputeRelativePosition (range_start x) (range_end y) with
            | RLeft => kPrecedingLeft | RCenter => kPrecedingStraight | RRight => kPrecedingRight end)))
  | _, _ => Ok kUnknown
  end.

(** The find_if of FindStraightPredecessor: route.cc 324-329. *)
Fixpoint find_straight (r : route) (x : lsrange) (j : nat) (l : list lsrange) : outcome (option nat) :=
  match l with
  | [] => Ok None
  | y :: l' => obind (ComputeLaneSRangeRelation r x y) (fun k =>
      match k with kPrecedingStraight => Ok (Some j) | _ => find_straight r x (S j) l' end)
  end.
(** Route::FindStraightPredecessor: route.cc 319-336. *)
Definition FindStraightPredecessor (r : route) (p i : nat) : outcome (option idx) :=
  match p with
  | O => Throw
  | S q =>
      match nth_error r q with
      | None => Throw
      | Some prev => obind (GetLaneSRange r p i) (fun x =>
          omap (option_map (fun j => (q, j))) (find_straight r x 0 (ph_ranges prev)))
      end
  end.
(** Route::FindDirectionTowardsLaneSRangeWithStraightPredecessor: route.cc 338-365.  [true]
    is kTowardsLeft.  The branch at 351-358 is unreachable (its bound is 0 and the index
    is not); the loop of 359-363 is [any_pred] over the indices above [i]. *)
Fixpoint any_pred (r : route) (p : nat) (js : list nat) : outcome bool :=
  match js with
  | [] => Ok false
  | j :: js' => obind (FindStraightPredecessor r p j) (fun o => match o with Some _ => Ok true | None => any_pred r p js' end)
  end.
Definition FindDirection (r : route) (p i : nat) : outcome bool :=
  match nth_error r p with
  | None => Throw
  | Some x =>
      let n := length (ph_ranges x) in
      if Nat.eqb i 0 then Ok true
      else if Nat.eqb (i + 1) n then Ok false
      else any_pred r p (seq (i + 1) (n - (i + 1)))
  end.
(** current_index.lane_s_range += direction; 0 + kTowardsRight is then out of range for
    GetLaneSRange. *)
Definition move (left : bool) (i : nat) : option nat :=
  if left then Some (S i) else match i with O => None | S j => Some j end.

(** The inner loop: route.cc 255-262.  [b] is num_lane_s_ranges_to_check + 1. *)
Fixpoint pred_loop (b : nat) (r : route) (p i : nat) (acc : list lsrange) : outcome (option idx * list lsrange * nat) :=
  match b with
  | O => Ok (None, acc, O)
  | S b' =>
      obind (FindStraightPredecessor r p i) (fun o =>
      match o with
      | Some q => Ok (Some q, acc, b')
      | None => obind (FindDirection r p i) (fun d =>
          match move d i with
          | None => Throw
          | Some i' => obind (GetLaneSRange r p i') (fun x => pred_loop b' r p i' (x :: acc))
          end)
      end)
  end.
(** The outer loop: route.cc 248-271.  [b] is num_phases_to_check + 1. *)
Fixpoint phase_loop (b : nat) (r : route) (start_phase : nat) (cur : idx) (acc : list lsrange) : outcome (idx * list lsrange) :=
  if Nat.eqb (fst cur) start_phase then match b with O => Throw | S _ => Ok (cur, acc) end
  else match b with
       | O => Throw
       | S b' =>
           obind (GetLaneSRange r (fst cur) (snd cur)) (fun x =>
           match nth_error r (fst cur) with
           | None => UB
           | Some ph =>
               obind (pred_loop (S (length (ph_ranges ph))) r (fst cur) (snd cur) (x :: acc)) (fun res =>
               match res with
               | (Some q, acc', S _) => phase_loop b' r start_phase q acc'
               | _ => Throw
               end)
           end)
       end.
(** The last loop: route.cc 276-301.  [UB] is reached when [fuel] runs out. *)
Fixpoint switch_loop (fuel : nat) (r : route) (start : idx) (cur : idx) (acc : list lsrange) : outcome (list lsrange) :=
  match fuel with
  | O => UB
  | S f =>
      obind (GetLaneSRange r (fst cur) (snd cur)) (fun x =>
      obind (GetLaneSRange r (fst start) (snd start)) (fun s =>
      obind (ComputeLaneSRangeRelation r s x) (fun k =>
      match k with
      | kLeft | kAdjacentLeft => match move false (snd cur) with None => Throw | Some i => switch_loop f r start (fst cur, i) (x :: acc) end
      | kRight | kAdjacentRight => match move true (snd cur) with None => Throw | Some i => switch_loop f r start (fst cur, i) (x :: acc) end
      | kCoincident => Ok (x :: acc)
      | _ => Throw
      end)))
  end.
Definition last_end (r : route) : outcome rpos :=
  match rev r with [] => UB | x :: _ => match ph_ends x with [] => UB | e :: _ => Ok e end end.
Definition point (p : rpos) : outcome lsrange := obind (SRange (ps (at_pos p)) (ps (at_pos p))) (fun s => Ok (mk_lsrange (at_lane p) s)).
(** Route::ComputeLaneSRoute: route.cc 208-303. *)
Definition ComputeLaneSRoute (fuel : nat) (r : route) (start : rpos) : outcome (list lsrange) :=
  obind (last_end r) (fun e =>
  obind (point e) (fun ep => obind (point start) (fun sp =>
  match FindLaneSRangeIndex r sp with
  | None => Throw
  | Some si => match FindLaneSRangeIndex r ep with
               | None => Throw
               | Some ei =>
                   obind (phase_loop (S (length r - fst si)) r (fst si) ei []) (fun ca =>
                   switch_loop fuel r si (fst ca) (snd ca))
               end
  end))).

(** Route::FindRoutePosition(InertialPosition): route.cc 61-91. *)
Fixpoint phase_positions (r : list phase) (v : vec) : outcome (list (ppos * lsrange)) :=
  match r with
  | [] => Ok []
  | p :: r' => obind (FindPhasePositionI p v) (fun q =>
      match nth_error (ph_ranges p) (pp_index q) with
      | None => UB
      | Some x => omap (cons (q, x)) (phase_positions r' v)
      end)
  end.
Definition ppos_result (c : ppos * lsrange) : result :=
  mk_result (lane_id (snd c)) (ps (pp_pos (fst c))) (pr (pp_pos (fst c))) (pp_dist (fst c)).
Definition FindRoutePositionI (r : route) (v : vec) : outcome (nat * ppos) :=
  obind (phase_positions r v) (fun cs =>
  match cs with
  | [] => UB
  | c :: cs' => let '(i, (q, _)) := best_from ppos_result (0%nat, c) 1 cs' in Ok (i, q)
  end).
(** The find_if of FindRoutePosition(RoadPosition): route.cc 96-98. *)
Fixpoint find_phase (r : list phase) (q : rpos) (i : nat) : outcome (option (nat * phase)) :=
  match r with
  | [] => Ok None
  | p :: r' => obind (ValidatePosition q (ph_ranges p) (ph_tol p)) (fun b => if b : bool then Ok (Some (i, p)) else find_phase r' q (S i))
  end.
(** Route::FindRoutePosition(RoadPosition): route.cc 93-107. *)
Definition FindRoutePositionR (r : route) (q : rpos) : outcome (nat * ppos) :=
  obind (find_phase r q 0) (fun o =>
  match o with
  | None => FindRoutePositionI r (inertial net (at_lane q) (at_pos q))
  | Some (i, p) => omap (pair i) (FindPhasePositionR p q)
  end).

(** IsRoadPositionClose (with api::IsInertialPositionClose, compare.cc 55-85): route.cc 387-393. *)
Definition position_close (a b : rpos) : bool :=
  let u := inertial net (at_lane a) (at_pos a) in
  let v := inertial net (at_lane b) (at_pos b) in
  Qleb (Qabs (vx u - vx v)) (tolerance net) && Qleb (Qabs (vy u - vy v)) (tolerance net) && Qleb (Qabs (vz u - vz v)) (tolerance net).
(** GetClosestLaneEndWhich: route.cc 396-400. *)
Definition closest_end (p : rpos) : bool :=
  match len net (at_lane p) with
  | Some l => negb (Qleb (ps (at_pos p)) (l - ps (at_pos p)))
  | None => true
  end.
(** FindPositionByLane, MatchPositionInLaneEndSet and the body of the loop: route.cc 374-379,
    413-432, 471-494. *)
Definition end_connected (starts : list rpos) (e : rpos) : bool :=
  match find (fun s => Nat.eqb (at_lane s) (at_lane e)) starts with
  | Some s => position_close e s
  | None =>
      let set := ongoing net (at_lane e) (closest_end e) in
      existsb (position_close e) (filter (fun s => existsb (fun le => Nat.eqb (at_lane s) (fst le)) set) starts)
  end.
Fixpoint phases_connected (l : list phase) : bool :=
  match l with
  | a :: (b :: _) as l' =>
      (Nat.eqb (length (ph_ends a)) (length (ph_starts b)) && forallb (end_connected (ph_starts b)) (ph_ends a)) && phases_connected l'
  | _ => true
  end.
(** ValidateEndToEndConnectivity().empty(): route.cc 436-497. *)
Definition Connected (r : route) : outcome bool :=
  match r, rev r with
  | a :: _, z :: _ => Ok ((Nat.eqb (length (ph_starts a)) 1 && Nat.eqb (length (ph_ends z)) 1) && phases_connected r)
  | _, _ => UB
  end.
End Net.
