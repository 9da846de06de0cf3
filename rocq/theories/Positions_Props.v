(** C10-C13: road position queries. *)
From Coq Require Import List QArith Qabs Bool Arith ZArith Lqa Lia.
From Verif Require Import Base KdTree_Model KdTree_Spec KdTree_Proofs Positions_Model Positions_Spec Positions_Proofs.
Import ListNotations.
Open Scope Q_scope.

(** C10: the result holds the positions of exactly the lanes whose distance is in
    range. *)
Theorem find_road_positions_exact : forall to_lane rg radius l,
  FindRoadPositions to_lane rg radius = Ok l ->
  forall x, In x l <-> exists lane, In lane (lanes_of rg) /\ x = to_lane lane /\ radius_ok radius (r_dist x).
Proof. exact find_exact. Qed.
Print Assumptions find_road_positions_exact.

(** C10: in the order of the lanes, one entry per lane in range. *)
Theorem find_road_positions_order : forall to_lane rg radius,
  FindRoadPositions to_lane rg radius = throw_unless (match radius with None => true | Some r => Qleb 0 r end)
    (Ok (filter (fun x => match radius with None => true | Some r => Qleb (r_dist x) r end) (map to_lane (lanes_of rg)))).
Proof. exact find_flat. Qed.
Print Assumptions find_road_positions_order.

Theorem find_road_positions_once : forall to_lane rg radius l,
  (forall k, r_lane (to_lane k) = k) -> NoDup (lanes_of rg) ->
  FindRoadPositions to_lane rg radius = Ok l -> NoDup (map r_lane l).
Proof. exact find_once. Qed.
Print Assumptions find_road_positions_once.

Theorem find_road_positions_throws_iff : forall to_lane rg radius,
  FindRoadPositions to_lane rg radius = Throw <-> exists r, radius = Some r /\ r < 0.
Proof. exact find_throws. Qed.
Print Assumptions find_road_positions_throws_iff.

Definition ex_lane (k : nat) : result := mk_result k 0 0 (inject_Z (Z.of_nat k)).
Example find_road_positions_example :
  FindRoadPositions ex_lane [[[5; 1]; []]; []; [[2; 9]; [0]]]%nat (Some 2) = Ok [ex_lane 1; ex_lane 2; ex_lane 0]
  /\ NoDup (lanes_of [[[5; 1]; []]; []; [[2; 9]; [0]]]%nat).
Proof. split; [vm_compute; reflexivity|]. repeat constructor; simpl; intuition discriminate. Qed.

(** C12: the comparison is irreflexive and asymmetric. *)
Theorem closer_strict : forall lane_bounds a b,
  IsCloser lane_bounds a a = false /\ (IsCloser lane_bounds a b = true -> IsCloser lane_bounds b a = false).
Proof. intros. split; [apply closer_irrefl|apply closer_asym]. Qed.
Print Assumptions closer_strict.

(** C12: a candidate closer by more than 1e-12 wins; one farther by 1e-12 never does. *)
Theorem closer_distance : forall lane_bounds a b,
  (r_dist a < r_dist b - (1 # 1000000000000) -> IsCloser lane_bounds a b = true) /\
  (IsCloser lane_bounds a b = true -> r_dist a < r_dist b + (1 # 1000000000000)).
Proof. intros. split; [apply closer_far|apply closer_bound]. Qed.
Print Assumptions closer_distance.

(** C12: among (nearly) equal distances, being inside the lane bounds decides, then |r|. *)
Theorem closer_tie : forall lane_bounds a b,
  - (1 # 1000000000000) <= r_dist a - r_dist b -> r_dist a - r_dist b < 1 # 1000000000000 ->
  let inside x := fst (lane_bounds (r_lane x) (r_s x)) <= r_r x /\ r_r x < snd (lane_bounds (r_lane x) (r_s x)) in
  (IsCloser lane_bounds a b = true <->
     (inside a /\ ~ inside b) \/ ((inside a <-> inside b) /\ Qabs (r_r a) < Qabs (r_r b))).
Proof. exact closer_tie_spec. Qed.
Print Assumptions closer_tie.

(** C12: it is not transitive, hence no order to take a minimum of. *)
Theorem closer_transitive_refuted : exists lane_bounds a b c,
  IsCloser lane_bounds a b = true /\ IsCloser lane_bounds b c = true /\ IsCloser lane_bounds a c = false.
Proof. exact closer_not_transitive. Qed.
Print Assumptions closer_transitive_refuted.

(** C11: without hint the result is a lane's position, no farther than any other
    lane's but for 1e-12 per lane, and within the tolerance if some lane is. *)
Theorem to_road_position_closest : forall lane_bounds to_lane rg tol, lanes_of rg <> [] ->
  exists x, ToRoadPosition lane_bounds to_lane rg tol None = Ok x /\
    (exists lane, In lane (lanes_of rg) /\ x = to_lane lane) /\
    (forall lane, In lane (lanes_of rg) ->
       r_dist x <= r_dist (to_lane lane) + inject_Z (Z.of_nat (length (lanes_of rg))) * (1 # 1000000000000)) /\
    ((exists lane, In lane (lanes_of rg) /\ r_dist (to_lane lane) <= tol) -> r_dist x <= tol).
Proof. exact to_road_position_spec. Qed.
Print Assumptions to_road_position_closest.

(** C11: with a hint, the hinted lane's position whatever the distances. *)
Theorem to_road_position_hinted : forall lane_bounds to_lane rg tol l,
  ToRoadPosition lane_bounds to_lane rg tol (Some l) = Ok (to_lane l).
Proof. exact to_road_position_hint. Qed.
Print Assumptions to_road_position_hinted.

Theorem to_road_position_throws_iff : forall lane_bounds to_lane rg tol,
  ToRoadPosition lane_bounds to_lane rg tol None = Throw <-> lanes_of rg = [].
Proof. exact to_road_position_throw. Qed.
Print Assumptions to_road_position_throws_iff.

(** C11: minimal up to the comparison's own 1e-12 is false: the error accumulates. *)
Theorem to_road_position_closest_refuted : exists lane_bounds to_lane rg tol x,
  ToRoadPosition lane_bounds to_lane rg tol None = Ok x /\
  exists lane, In lane (lanes_of rg) /\ r_dist (to_lane lane) + (1 # 1000000000000) < r_dist x.
Proof. exact to_road_position_drift. Qed.
Print Assumptions to_road_position_closest_refuted.

Example to_road_position_example :
  lanes_of [[[5; 1]; []]; []; [[2; 9]; [0]]]%nat <> [] /\
  ToRoadPosition (fun _ _ => (-1, 1)) ex_lane [[[5; 1]; []]; []; [[2; 9]; [0]]]%nat (1 # 10) None = Ok (ex_lane 0).
Proof. split; [discriminate|vm_compute; reflexivity]. Qed.

(** C13: the sampling terminates and yields points of the lanes' grids, at least one
    per lane of non-negative length and non-empty bounds. *)
Theorem kd_strategy_sampling : forall lane_bounds lane_length to_inertial lanes step, 0 < step ->
  exists l, sample_points lane_bounds lane_length to_inertial lanes step = Ok l /\
    (forall p, In p l -> In (snd p) lanes /\ is_sample lane_bounds lane_length to_inertial step (snd p) (fst p)) /\
    (forall lane, In lane lanes -> 0 <= lane_length lane ->
       (forall s, s == 0 -> fst (lane_bounds lane s) <= snd (lane_bounds lane s)) -> exists p, In p l /\ snd p = lane).
Proof.
  intros. destruct (sample_points_spec lane_bounds lane_length to_inertial lanes step H) as (l & E & S).
  exists l. split; [exact E|]. split; [exact S|]. intros. eapply sample_points_cover; eauto.
Qed.
Print Assumptions kd_strategy_sampling.

(** C13, FindRoadPositions.  Sound: every result is a lane in range.  Complete only
    for lanes with a sampled point in the cube around the query. *)
Theorem kd_find_road_positions_partial : forall lane_bounds to_lane lane_length to_inertial nth_element,
  nth_element_ok mpoint mcoord nth_element ->
  forall lanes step p radius, 0 < step -> (match radius with Some r => 0 <= r | None => True end) ->
  forall pts, sample_points lane_bounds lane_length to_inertial lanes step = Ok pts -> pts <> [] ->
  exists t res, KDTreeStrategy lane_bounds lane_length to_inertial nth_element lanes step = Ok t /\
    KDFindRoadPositions to_lane t p radius = Ok res /\
    (forall x, In x res -> exists lane c, In lane lanes /\ x = to_lane lane /\ radius_ok radius (r_dist x) /\
         In (c, lane) pts /\ in_cube c p (match radius with Some r => Some (r + kTolerance) | None => None end)) /\
    (forall lane c, In (c, lane) pts -> in_cube c p radius -> radius_ok radius (r_dist (to_lane lane)) -> In (to_lane lane) res).
Proof. exact KDFind_spec. Qed.
Print Assumptions kd_find_road_positions_partial.

(** C13: with an infinite radius the same set of lanes as brute force, provided every lane is sampled. *)
Theorem kd_find_road_positions_all : forall lane_bounds to_lane lane_length to_inertial nth_element,
  nth_element_ok mpoint mcoord nth_element ->
  forall lanes step p, 0 < step -> lanes <> [] ->
  (forall lane, In lane lanes -> 0 <= lane_length lane /\
     forall s, s == 0 -> fst (lane_bounds lane s) <= snd (lane_bounds lane s)) ->
  exists t res, KDTreeStrategy lane_bounds lane_length to_inertial nth_element lanes step = Ok t /\
    KDFindRoadPositions to_lane t p None = Ok res /\
    forall x, In x res <-> exists lane, In lane lanes /\ x = to_lane lane.
Proof. exact KDFind_all. Qed.
Print Assumptions kd_find_road_positions_all.

(** C13: in general it is not the brute force answer: a lane in range can be missed,
    and a lane is reported once per sampled point. *)
Theorem kd_find_road_positions_complete_refuted :
  exists lane_bounds to_lane lane_length to_inertial lanes step p radius t res lane,
    0 < step /\ 0 <= radius /\
    KDTreeStrategy lane_bounds lane_length to_inertial (isort mpoint mcoord) lanes step = Ok t /\
    KDFindRoadPositions to_lane t p (Some radius) = Ok res /\
    In lane lanes /\ r_dist (to_lane lane) <= radius /\ ~ In (to_lane lane) res.
Proof. exact KDFind_misses. Qed.
Print Assumptions kd_find_road_positions_complete_refuted.

Theorem kd_find_road_positions_once_refuted :
  exists lane_bounds to_lane lane_length to_inertial lanes step p t res,
    NoDup lanes /\ (forall k, r_lane (to_lane k) = k) /\ 0 < step /\
    KDTreeStrategy lane_bounds lane_length to_inertial (isort mpoint mcoord) lanes step = Ok t /\
    KDFindRoadPositions to_lane t p None = Ok res /\ ~ NoDup (map r_lane res).
Proof. exact KDFind_duplicates. Qed.
Print Assumptions kd_find_road_positions_once_refuted.

(** C13, ToRoadPosition: a lane's position, closest among the lanes with a sampled
    point in the searched cube (around the query, out to the nearest sample plus two
    steps). *)
Theorem kd_to_road_position_partial : forall lane_bounds to_lane lane_length to_inertial nth_element,
  nth_element_ok mpoint mcoord nth_element ->
  forall norm, (forall a b, 0 <= norm a b) ->
  forall lanes step p tiny, 0 < step -> 0 < tiny ->
  forall pts, sample_points lane_bounds lane_length to_inertial lanes step = Ok pts -> pts <> [] ->
  exists t res n c0 lane0, KDTreeStrategy lane_bounds lane_length to_inertial nth_element lanes step = Ok t /\
    KDToRoadPosition lane_bounds to_lane norm t tiny step p None = Ok res /\
    (exists lane, In lane lanes /\ res = to_lane lane) /\
    (n <= length pts)%nat /\ In (c0, lane0) pts /\
    r_dist res <= r_dist (to_lane lane0) + inject_Z (Z.of_nat n) * (1 # 1000000000000) /\
    (forall lane c, In (c, lane) pts -> in_cube c p (Some (norm p c0 + 2 * step)) ->
        r_dist res <= r_dist (to_lane lane) + inject_Z (Z.of_nat n) * (1 # 1000000000000)).
Proof. exact KDClosest_spec. Qed.
Print Assumptions kd_to_road_position_partial.

(** C13: globally closest when the grid is dense enough: each lane has a sample within
    two steps of its distance to the query. *)
Theorem kd_to_road_position_closest : forall lane_bounds to_lane lane_length to_inertial nth_element,
  nth_element_ok mpoint mcoord nth_element ->
  forall norm, (forall a b, 0 <= norm a b) -> (forall p c h, norm p c <= h -> in_cube c p (Some h)) ->
  forall lanes step p tiny, 0 < step -> 0 < tiny ->
  forall pts, sample_points lane_bounds lane_length to_inertial lanes step = Ok pts -> pts <> [] ->
  (forall c lane, In (c, lane) pts -> r_dist (to_lane lane) <= norm p c) ->
  (forall lane, In lane lanes -> exists c, In (c, lane) pts /\ norm p c <= r_dist (to_lane lane) + 2 * step) ->
  exists t res, KDTreeStrategy lane_bounds lane_length to_inertial nth_element lanes step = Ok t /\
    KDToRoadPosition lane_bounds to_lane norm t tiny step p None = Ok res /\
    (exists lane, In lane lanes /\ res = to_lane lane) /\
    forall lane, In lane lanes ->
      r_dist res <= r_dist (to_lane lane) + inject_Z (Z.of_nat (length pts)) * (1 # 1000000000000).
Proof. exact KDClosest_global. Qed.
Print Assumptions kd_to_road_position_closest.

(** Two parallel straight lanes of length 10, width 2, at y = 0 and y = 2; query (5, 1/2, 0).
    The maximum norm stands for the Euclidean one, which is irrational. *)
Example kd_to_road_position_example :
  nth_element_ok mpoint mcoord (isort mpoint mcoord) /\
  (forall a b, 0 <= ex_norm a b) /\ (forall p c h, ex_norm p c <= h -> in_cube c p (Some h)) /\
  exists t, KDTreeStrategy (fun _ _ => (-1, 1)) (fun _ => 10) ex_inertial (isort mpoint mcoord) [0; 1]%nat 1 = Ok t /\
  KDToRoadPosition (fun _ _ => (-1, 1)) ex_to_lane ex_norm t (1#1000) 1 (5, 1#2, 0) None = Ok (ex_to_lane 0).
Proof. exact KDClosest_example. Qed.
