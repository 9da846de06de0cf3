(** Model of the comparison functions of the public API:
    include/maliput/common/compare.h, src/maliput/api/compare.cc,
    src/maliput/api/rules/compare.cc, src/maliput/routing/compare.cc and
    src/maliput/math/compare.cc.
    A ComparisonResult is the presence of its message; of the text only the numbers
    "N out of M comparisons failed" are kept.  Ids are natural numbers, pointers are
    optional natural numbers, std::string is [str].  The functions are written once
    over an abstract scalar and used with exact rationals and with IEEE doubles. *)
From Coq Require Import List ZArith QArith Qabs Bool Arith.
From Verif Require Import Base Maps Binary64 RuleStates_Model.
Import ListNotations.

(** What a message says: a plain difference, or the summary of a collector. *)
Inductive message := Diff | Summary (failed count : nat).
(** common::ComparisonResult: common/compare.h 45-48. *)
Definition cres : Type := option message.

(** common::ComparisonResultCollector: common/compare.h 52-84. *)
Record collector := mk_collector { c_count : nat; c_failed : nat }.
Definition new_collector : collector := mk_collector 0 0.
(** AddResult: common/compare.h 56-65. *)
Definition AddResult (r : cres) (c : collector) : collector :=
  mk_collector (S (c_count c)) (match r with Some _ => S (c_failed c) | None => c_failed c end).
(** result(): common/compare.h 66-72. *)
Definition c_result (c : collector) : cres :=
  if Nat.ltb 0 (c_failed c) then Some (Summary (c_failed c) (c_count c)) else None.
(** A run of MALIPUT_ADD_RESULT statements: each argument is evaluated (it may
    throw), then added. *)
Fixpoint add_all (l : list (outcome cres)) (c : collector) : outcome collector :=
  match l with
  | [] => Ok c
  | r :: l' => obind r (fun r => add_all l' (AddResult r c))
  end.
Definition collect (l : list (outcome cres)) : outcome cres := omap c_result (add_all l new_collector).

(** "if (a != b) return {message}; return {nullopt}": api/compare.cc 252-258 (bool),
    269-276 (size_t), 43-51 and 311-330 (pointers), 376-382 (LaneEnd::Which); api/compare.h
    181-190 (ids); rules/compare.cc 159-173, 216-230, 307-313, 353-375 (enums). *)
Definition unless_same (same : bool) : cres := if same then None else Some Diff.
Definition eq_bool (a b : bool) : cres := unless_same (Bool.eqb a b).
Definition eq_size (a b : nat) : cres := unless_same (Nat.eqb a b).
Definition eq_id (a b : nat) : cres := unless_same (Nat.eqb a b).
Definition eq_enum (a b : nat) : cres := unless_same (Nat.eqb a b).
Definition eq_ptr (a b : option nat) : cres :=
  unless_same (match a, b with Some x, Some y => Nat.eqb x y | None, None => true | _, _ => false end).
Definition has_value {A} (a : option A) : bool := match a with Some _ => true | None => false end.

(** The loop "for i < min(a.size(), b.size())" that compares a[i] with b[i], after
    the sizes: rules/compare.cc 115-124, 232-241, 428-438, api/compare.cc 293-303. *)
Definition eq_vector {A} (f : A -> A -> outcome cres) (a b : list A) : outcome cres :=
  collect (Ok (eq_size (length a) (length b)) :: map (fun p => f (fst p) (snd p)) (combine a b)).

(** The comparison of two unordered_maps of states over the larger one:
    rules/compare.cc 184-202 and 252-270.  Maps are lists of pairs in the (arbitrary)
    order of the iteration. *)
Definition eq_state_map {A} (f : A -> A -> outcome cres) (a b : list (nat * A)) : outcome cres :=
  let largest := if Nat.ltb (length a) (length b) then b else a in
  collect (Ok (eq_size (length a) (length b)) ::
    flat_map (fun kv =>
      let x := mfind Nat.eqb (fst kv) a in
      let y := mfind Nat.eqb (fst kv) b in
      [Ok (eq_bool (has_value x) true); Ok (eq_bool (has_value y) true)] ++
      match x, y with Some v, Some w => [f v w] | _, _ => [] end) largest).

(** map.at(key): throws std::out_of_range when the key is missing. *)
Definition map_at {A B} (k : nat) (m : list (nat * A)) (f : A -> outcome B) : outcome B :=
  match mfind Nat.eqb k m with Some v => f v | None => Throw end.

(** IsEqual(RuleStates): rules/compare.cc 45-49. *)
Definition eq_rule_states (a b : list (nat * nat)) : outcome cres := collect [Ok (eq_size (length a) (length b))].

(** IsEqual(DiscreteValue): rules/compare.cc 53-59. *)
Definition eq_dvalue (a b : dvalue) : cres := unless_same (str_eqb (dv_value a) (dv_value b)).
(** IsEqual(unordered_map<Rule::Id, DiscreteValue>): rules/compare.cc 61-70. *)
Definition eq_dvalue_map (a b : list (nat * dvalue)) : outcome cres :=
  collect (Ok (eq_size (length a) (length b)) ::
           map (fun kv => map_at (fst kv) b (fun v => Ok (eq_dvalue v (snd kv)))) a).
(** IsEqual(vector<DiscreteValue>): rules/compare.cc 144-154. *)
Definition eq_dvalue_vector (a b : list dvalue) : outcome cres :=
  collect (Ok (eq_size (length a) (length b)) ::
           map (fun x => Ok (eq_bool (existsb (fun y => dvalue_eqb y x) b) true))
               (firstn (Nat.min (length a) (length b)) a)).

(** IsEqual(Range), IsEqual(vector<Range>): rules/compare.cc 105-124. *)
Definition eq_range (a b : range) : cres := unless_same (range_eqb a b).
Definition eq_range_vector (a b : list range) : outcome cres := eq_vector (fun x y => Ok (eq_range x y)) a b.

(** IsEqual(optional<BulbStates>): rules/compare.cc 377-388.  [b->size()] with an
    empty [b] is undefined.  UniqueBulbIds are natural numbers. *)
Definition eq_bulb_states (a b : option (list (nat * nat))) : outcome cres :=
  collect (Ok (eq_bool (has_value a) (has_value b)) ::
    match a with
    | None => []
    | Some ma =>
        match b with
        | None => [UB]
        | Some mb => Ok (eq_size (length ma) (length mb)) ::
                     map (fun kv => map_at (fst kv) mb (fun v => Ok (eq_enum v (snd kv)))) ma
        end
    end).

(** Phase: phase.h 62-120, and IsEqual(Phase): rules/compare.cc 72-82. *)
Record cphase := mk_cphase { ph_id : nat; ph_rules : list (nat * nat); ph_values : list (nat * dvalue); ph_bulbs : option (list (nat * nat)) }.
Definition eq_phase (a b : cphase) : outcome cres :=
  collect [Ok (eq_id (ph_id a) (ph_id b)); eq_rule_states (ph_rules a) (ph_rules b);
           eq_dvalue_map (ph_values a) (ph_values b); eq_bulb_states (ph_bulbs a) (ph_bulbs b)].

(** DirectionUsageRule::State: direction_usage_rule.h 70-125; IsEqual:
    rules/compare.cc 175-182. *)
Record dustate := mk_dustate { us_id : nat; us_type : nat; us_severity : nat }.
Definition eq_dustate (a b : dustate) : outcome cres :=
  collect [Ok (eq_id (us_id a) (us_id b)); Ok (eq_enum (us_severity a) (us_severity b)); Ok (eq_enum (us_type a) (us_type b))].

(** RightOfWayRule::State: right_of_way_rule.h 97-141; IsEqual: rules/compare.cc
    232-250. *)
Record rwstate := mk_rwstate { ws_id : nat; ws_type : nat; ws_yield : list nat }.
Definition eq_ids (a b : list nat) : outcome cres := eq_vector (fun x y => Ok (eq_id x y)) a b.
Definition eq_rwstate (a b : rwstate) : outcome cres :=
  collect [Ok (eq_id (ws_id a) (ws_id b)); Ok (eq_enum (ws_type a) (ws_type b)); eq_ids (ws_yield a) (ws_yield b)].

(** static_state(): direction_usage_rule.h 163-167, right_of_way_rule.h 199-203. *)
Definition static_state {A} (m : list (nat * A)) : outcome A := match m with [(_, v)] => Ok v | _ => Throw end.
(** is_static(): direction_usage_rule.h 156, right_of_way_rule.h 192. *)
Definition is_static {A} (m : list (nat * A)) : bool := Nat.eqb (length m) 1.

(** IsEqual(unordered_map<TrafficLight::Id, vector<BulbGroup::Id>>):
    rules/compare.cc 328-351; the two [break]s end the inner and the outer loop. *)
Fixpoint group_checks (l w : list nat) : list (outcome cres) :=
  match l with
  | [] => []
  | x :: l' => if vmem x w then Ok (eq_bool true true) :: group_checks l' w else [Ok (eq_bool false true)]
  end.
Fixpoint light_checks (a b : list (nat * list nat)) : list (outcome cres) :=
  match a with
  | [] => []
  | (k, l) :: a' =>
      match mfind Nat.eqb k b with
      | None => [Ok (eq_bool false true)]
      | Some w => Ok (eq_bool true true) :: group_checks l w ++ light_checks a' b
      end
  end.
Definition eq_bulb_groups (a b : list (nat * list nat)) : outcome cres :=
  collect (Ok (eq_size (length a) (length b)) :: if Nat.eqb (length a) (length b) then light_checks a b else []).

(** ** Functions with doubles *)
Section Scalar.
Variable D : Type.
(** [far tol a b]: "std::abs(a - b) > tol". *)
Variable far : D -> D -> D -> bool.
(** a == b *)
Variable deqb : D -> D -> bool.
(** std::numeric_limits<double>::epsilon() *)
Variable eps : D.

Definition vec3 : Type := D * D * D.
Definition c1 (v : vec3) : D := fst (fst v).
Definition c2 (v : vec3) : D := snd (fst v).
Definition c3 (v : vec3) : D := snd v.
Definition vec3_eqb (a b : vec3) : bool := deqb (c1 a) (c1 b) && deqb (c2 a) (c2 b) && deqb (c3 a) (c3 b).

(** IsInertialPositionClose, IsLanePositionClose, IsRotationClose (roll, pitch, yaw):
    api/compare.cc 55-148. *)
Definition close3 (a b : vec3) (tol : D) : cres :=
  let fails := false in
  let fails := if far tol (c1 a) (c1 b) then true else fails in
  let fails := if far tol (c2 a) (c2 b) then true else fails in
  let fails := if far tol (c3 a) (c3 b) then true else fails in
  unless_same (negb fails).
(** IsRBoundsClose, IsHBoundsClose: api/compare.cc 150-196. *)
Definition close2 (a b : D * D) (tol : D) : cres :=
  let fails := false in
  let fails := if far tol (fst a) (fst b) then true else fails in
  let fails := if far tol (snd a) (snd b) then true else fails in
  unless_same (negb fails).

(** IsLanePositionResultClose: api/compare.cc 198-216. *)
Record lane_result := mk_lane_result { lr_pos : vec3; lr_nearest : vec3; lr_dist : D }.
Definition lane_result_close (a b : lane_result) (tol : D) : cres :=
  match close3 (lr_pos a) (lr_pos b) tol with
  | Some m => Some m
  | None =>
      match close3 (lr_nearest a) (lr_nearest b) tol with
      | Some m => Some m
      | None => unless_same (negb (far tol (lr_dist a) (lr_dist b)))
      end
  end.
(** IsRoadPositionResultClose: api/compare.cc 218-235. *)
Record road_result := mk_road_result { rr_lane : option nat; rr_result : lane_result }.
Definition road_result_close (a b : road_result) (tol : D) : cres :=
  match rr_lane a, rr_lane b with
  | None, _ => Some Diff
  | _, None => Some Diff
  | Some x, Some y => if negb (Nat.eqb x y) then Some Diff else lane_result_close (rr_result a) (rr_result b) tol
  end.
(** IsPhasePositionResultClose, IsRoutePositionResultClose: routing/compare.cc 40-75. *)
Record phase_result := mk_phase_result { pr_index : Z; pr_pos : vec3; pr_inertial : vec3; pr_dist : D }.
Definition phase_result_close (a b : phase_result) (tol : D) : cres :=
  if negb (Z.eqb (pr_index a) (pr_index b)) then Some Diff
  else match close3 (pr_pos a) (pr_pos b) tol with
       | Some m => Some m
       | None =>
           match close3 (pr_inertial a) (pr_inertial b) tol with
           | Some m => Some m
           | None => unless_same (negb (far tol (pr_dist a) (pr_dist b)))
           end
       end.
Record route_result := mk_route_result { ro_phase : Z; ro_result : phase_result }.
Definition route_result_close (a b : route_result) (tol : D) : cres :=
  if negb (Z.eqb (ro_phase a) (ro_phase b)) then Some Diff else phase_result_close (ro_result a) (ro_result b) tol.

(** IsEqual(double): api/compare.cc 260-267. *)
Definition eq_double (a b : D) : cres := unless_same (negb (far eps a b)).
(** IsEqual(SRange), (LaneSRange), (vector<LaneSRange>), (LaneSRoute): api/compare.cc
    278-309. *)
Record rng := mk_rng { r_s0 : D; r_s1 : D }.
Record lrange := mk_lrange { l_lane : nat; l_rng : rng }.
Definition eq_rng (a b : rng) : outcome cres := collect [Ok (eq_double (r_s0 a) (r_s0 b)); Ok (eq_double (r_s1 a) (r_s1 b))].
Definition eq_lrange (a b : lrange) : outcome cres := collect [Ok (eq_id (l_lane a) (l_lane b)); eq_rng (l_rng a) (l_rng b)].
Definition eq_lranges (a b : list lrange) : outcome cres := eq_vector eq_lrange a b.
Definition eq_lroute (a b : list lrange) : outcome cres := collect [eq_lranges a b].

(** IsEqual(InertialPosition), IsEqual(Rotation): api/compare.cc 358-374.  A Rotation
    is its matrix(), as three rows. *)
Definition eq_inertial (a b : vec3) : cres := unless_same (vec3_eqb a b).
Definition mat3 : Type := vec3 * vec3 * vec3.
Definition eq_rotation (a b : mat3) : cres :=
  unless_same (vec3_eqb (fst (fst a)) (fst (fst b)) && vec3_eqb (snd (fst a)) (snd (fst b)) && vec3_eqb (snd a) (snd b)).

(** IsEqual(optional<double>): rules/compare.cc 390-398; value() of an empty optional
    throws. *)
Definition eq_opt_double (a b : option D) : outcome cres :=
  collect (Ok (eq_bool (has_value a) (has_value b)) ::
           match a with
           | None => []
           | Some x => [match b with Some y => Ok (eq_double x y) | None => Throw end]
           end).
(** PhaseRing::NextPhase: phase_ring.h 50-60; IsEqual: rules/compare.cc 84-103. *)
Record cnext := mk_cnext { nx_id : nat; nx_until : option D }.
Definition eq_next (a b : cnext) : outcome cres :=
  collect [Ok (eq_id (nx_id a) (nx_id b)); Ok (eq_bool (has_value (nx_until a)) (has_value (nx_until b)));
           eq_opt_double (nx_until a) (nx_until b)].
Definition eq_nexts (a b : list cnext) : outcome cres :=
  collect (Ok (eq_size (length a) (length b)) ::
           if Nat.eqb (length a) (length b) then map (fun p => eq_next (fst p) (snd p)) (combine a b) else []).

(** RangeValueRule and DiscreteValueRule: IsEqual: rules/compare.cc 126-142. *)
Record crule (S : Type) := mk_crule { cr_id : nat; cr_type : nat; cr_zone : list lrange; cr_states : list S }.
Definition eq_range_rule (a b : crule range) : outcome cres :=
  collect [Ok (eq_id (cr_id _ a) (cr_id _ b)); Ok (eq_id (cr_type _ a) (cr_type _ b)); eq_lroute (cr_zone _ a) (cr_zone _ b);
           eq_range_vector (cr_states _ a) (cr_states _ b)].
Definition eq_discrete_rule (a b : crule dvalue) : outcome cres :=
  collect [Ok (eq_id (cr_id _ a) (cr_id _ b)); Ok (eq_id (cr_type _ a) (cr_type _ b)); eq_lroute (cr_zone _ a) (cr_zone _ b);
           eq_dvalue_vector (cr_states _ a) (cr_states _ b)].

(** DirectionUsageRule: direction_usage_rule.h 58-176; IsEqual: rules/compare.cc
    204-214. *)
Record durule := mk_durule { du_id : nat; du_zone : lrange; du_states : list (nat * dustate) }.
Definition eq_durule (a b : durule) : outcome cres :=
  collect ([Ok (eq_id (du_id a) (du_id b)); eq_lrange (du_zone a) (du_zone b);
            eq_state_map eq_dustate (du_states a) (du_states b);
            Ok (eq_bool (is_static (du_states a)) (is_static (du_states b)))] ++
           if is_static (du_states a) && is_static (du_states b)
           then [obind (static_state (du_states a)) (fun x => obind (static_state (du_states b)) (fun y => eq_dustate x y))]
           else []).

(** RightOfWayRule: right_of_way_rule.h 74-216; IsEqual: rules/compare.cc 272-286. *)
Record rwrule := mk_rwrule { rw_id : nat; rw_zone : list lrange; rw_ztype : nat; rw_states : list (nat * rwstate); rw_groups : list (nat * list nat) }.
Definition eq_rwrule (a b : rwrule) : outcome cres :=
  collect ([Ok (eq_id (rw_id a) (rw_id b)); eq_lroute (rw_zone a) (rw_zone b); Ok (eq_enum (rw_ztype a) (rw_ztype b));
            Ok (eq_bool (is_static (rw_states a)) (is_static (rw_states b)))] ++
           (if is_static (rw_states a) && is_static (rw_states b)
            then [obind (static_state (rw_states a)) (fun x => obind (static_state (rw_states b)) (fun y => eq_rwstate x y))]
            else [eq_state_map eq_rwstate (rw_states a) (rw_states b)]) ++
           [eq_bulb_groups (rw_groups a) (rw_groups b)]).

(** RightOfWayResult (state_provider_result.h 42-58); IsEqual: rules/compare.cc
    288-305. *)
Record rwresult := mk_rwresult { wr_state : nat; wr_next : option (nat * option D) }.
Definition eq_rwresult (a b : rwresult) : outcome cres :=
  collect ([Ok (eq_id (wr_state a) (wr_state b)); Ok (eq_bool (has_value (wr_next a)) (has_value (wr_next b)))] ++
           match wr_next a, wr_next b with
           | Some (x, d), Some (y, e) =>
               [Ok (eq_id x y); Ok (eq_bool (has_value d) (has_value e))] ++
               match d, e with Some u, Some v => [Ok (eq_double u v)] | _, _ => [] end
           | _, _ => []
           end).

(** SpeedLimitRule: speed_limit_rule.h 50-107; IsEqual: rules/compare.cc 315-324. *)
Record slrule := mk_slrule { sl_id : nat; sl_zone : lrange; sl_severity : nat; sl_min : D; sl_max : D }.
Definition eq_slrule (a b : slrule) : outcome cres :=
  collect [Ok (eq_id (sl_id a) (sl_id b)); eq_lrange (sl_zone a) (sl_zone b); Ok (eq_enum (sl_severity a) (sl_severity b));
           Ok (eq_double (sl_max a) (sl_max b)); Ok (eq_double (sl_min a) (sl_min b))].

(** Bulb::BoundingBox and Bulb: traffic_lights.h 83-235; IsEqual: rules/compare.cc
    400-426. *)
Record cbulb := mk_cbulb { cb_id : nat; cb_pos : vec3; cb_rot : mat3; cb_color : nat; cb_type : nat; cb_arrow : option D;
  cb_states : list nat; cb_min : vec3; cb_max : vec3 }.
Definition eq_box (a b : cbulb) : outcome cres :=
  collect [Ok (eq_double (c1 (cb_min a)) (c1 (cb_min b))); Ok (eq_double (c1 (cb_max a)) (c1 (cb_max b)));
           Ok (eq_double (c2 (cb_min a)) (c2 (cb_min b))); Ok (eq_double (c2 (cb_max a)) (c2 (cb_max b)));
           Ok (eq_double (c3 (cb_min a)) (c3 (cb_min b))); Ok (eq_double (c3 (cb_max a)) (c3 (cb_max b)))].
Definition eq_bulb (a b : cbulb) : outcome cres :=
  collect ([Ok (eq_id (cb_id a) (cb_id b)); Ok (eq_inertial (cb_pos a) (cb_pos b)); Ok (eq_rotation (cb_rot a) (cb_rot b));
            Ok (eq_enum (cb_color a) (cb_color b)); Ok (eq_enum (cb_type a) (cb_type b)); eq_opt_double (cb_arrow a) (cb_arrow b);
            Ok (eq_size (length (cb_states a)) (length (cb_states b)))] ++
           map (fun p => Ok (eq_enum (fst p) (snd p))) (combine (cb_states a) (cb_states b)) ++ [eq_box a b]).
(** BulbGroup: traffic_lights.h 240-330; IsEqual: rules/compare.cc 428-447. *)
Record cgroup := mk_cgroup { cg_id : nat; cg_pos : vec3; cg_rot : mat3; cg_bulbs : list cbulb }.
Definition eq_group (a b : cgroup) : outcome cres :=
  collect [Ok (eq_id (cg_id a) (cg_id b)); Ok (eq_inertial (cg_pos a) (cg_pos b)); Ok (eq_rotation (cg_rot a) (cg_rot b));
           eq_vector eq_bulb (cg_bulbs a) (cg_bulbs b)].
(** TrafficLight: traffic_lights.h 335-400; IsEqual: rules/compare.cc 449-463. *)
Record clight := mk_clight { ct_id : nat; ct_pos : vec3; ct_rot : mat3; ct_groups : list cgroup }.
Definition eq_light (a b : clight) : outcome cres :=
  collect ([Ok (eq_id (ct_id a) (ct_id b)); Ok (eq_inertial (ct_pos a) (ct_pos b)); Ok (eq_rotation (ct_rot a) (ct_rot b));
            Ok (eq_size (length (ct_groups a)) (length (ct_groups b)))] ++
           map (fun p => eq_group (fst p) (snd p)) (combine (ct_groups a) (ct_groups b))).
End Scalar.

(** ** LaneEnd *)
(** LaneEnd: lane pointer and which end ([true] for kFinish). *)
Record lane_end := mk_lane_end { le_lane : option nat; le_end : bool }.
(** IsLaneEndEqual: api/compare.cc 237-250; the message calls lane->id() on both. *)
Definition IsLaneEndEqual (a b : lane_end) : outcome cres :=
  match eq_ptr (le_lane a) (le_lane b) with
  | Some m => match le_lane a, le_lane b with Some _, Some _ => Ok (Some m) | _, _ => UB end
  | None => Ok (eq_bool (le_end a) (le_end b))
  end.
(** IsEqual(LaneEnd): api/compare.cc 384-389. *)
Definition eq_lane_end (a b : lane_end) : outcome cres :=
  collect [Ok (eq_ptr (le_lane a) (le_lane b)); Ok (eq_bool (le_end a) (le_end b))].

(** ** CheckIdIndexing: api/compare.cc 332-356 *)
(** An object of the tree is a pointer and an id; the index maps ids to pointers. *)
Record node := mk_node { n_ptr : nat; n_id : nat }.
Record csegment := mk_csegment { sg_node : node; sg_lanes : list node }.
Record cjunction := mk_cjunction { jn_node : node; jn_segments : list csegment }.
Record croad := mk_croad { rd_junctions : list cjunction; rd_bps : list node;
  get_junction : nat -> option nat; get_segment : nat -> option nat; get_lane : nat -> option nat; get_bp : nat -> option nat }.
Definition node_check (get : nat -> option nat) (n : node) : outcome cres := Ok (eq_ptr (get (n_id n)) (Some (n_ptr n))).
Definition CheckIdIndexing (g : croad) : outcome cres :=
  collect (flat_map (fun j =>
    node_check (get_junction g) (jn_node j) ::
    flat_map (fun s => node_check (get_segment g) (sg_node s) :: map (node_check (get_lane g)) (sg_lanes s)) (jn_segments j) ++
    map (node_check (get_bp g)) (rd_bps g)) (rd_junctions g)).

(** ** The two scalars *)
Definition far_q (tol a b : Q) : bool := Qltb tol (Qabs (a - b)).
Definition eps_q : Q := 1 # (2 ^ 52).
Definition far_d (tol a b : double) : bool := fgt (fabs (fsub a b)) tol.
Definition eps_d : double := fof 1 (-52).

(** ** CompareVectors, CompareMatrices: math/compare.cc 39-146 *)
(** Vectors are lists of doubles (one entry per component, the same number on both
    sides); a matrix is the list of its entries row by row. *)
Inductive compare_type := kAbsolute | kRelative.
Definition fmax (a b : double) : double := if flt a b then b else a.
Definition inf (s : bool) : double := SpecFloat.S754_infinity s.
Definition is_nan (x : double) : bool := match x with SpecFloat.S754_nan => true | _ => false end.
(** One turn of the loop: is a difference reported? *)
Definition component_differs (tol : double) (t : compare_type) (x y : double) : bool :=
  let both_positive_infinity := SpecFloat.SFeqb x (inf false) && SpecFloat.SFeqb y (inf false) in
  let both_negative_infinity := SpecFloat.SFeqb x (fneg (inf false)) && SpecFloat.SFeqb y (fneg (inf false)) in
  let both_nan := is_nan x && is_nan y in
  if both_positive_infinity || both_negative_infinity || both_nan then false
  else if (is_nan x && negb (is_nan y)) || (negb (is_nan x) && is_nan y) then true
  else
    let delta := fabs (fsub x y) in
    match t with
    | kAbsolute => fgt delta tol
    | kRelative =>
        let max_value := fmax (fabs x) (fabs y) in
        let relative_tolerance := fmul tol (fmax (fint 1) max_value) in
        fgt delta relative_tolerance
    end.
Definition CompareVectors (a b : list double) (tol : double) (t : compare_type) : cres :=
  unless_same (negb (existsb (fun p => component_differs tol t (fst p) (snd p)) (combine a b))).
