(** C19: SampleAheadWaypoints. *)
From Coq Require Import List QArith Qabs Bool Arith Lqa Lia.
From Verif Require Import Base Regions_Model Waypoints_Model Waypoints_Spec Waypoints_Proofs.
Import ListNotations.
Open Scope Q_scope.

(** C19.  On every non-empty route the call stops; it throws exactly for a rate
    that is not positive or a route with an unknown lane. *)
Theorem sample_waypoints_outcome :
  forall known tol rs rate, 0 < tol -> rs <> [] ->
  (exists w, SampleAheadWaypoints known tol rs rate = Ok w) /\ 0 < rate /\
    (forall r, In r rs -> known (lane_id r) = true) \/
  SampleAheadWaypoints known tol rs rate = Throw /\
    (rate <= 0 \/ exists r, In r rs /\ known (lane_id r) = false).
Proof. exact sample_outcome. Qed.
Print Assumptions sample_waypoints_outcome.

(** C19.  On routes travelled with s, waypoint i is at arc length i*step from the
    route start, where step is the rate clamped to [tolerance, route length]; the
    waypoints go on until less than one step is left; what is left is within the
    tolerance, or the route end is added as last waypoint. *)
Theorem sample_waypoints_even :
  forall known tol rs rate_in ws, 0 < tol -> forwards rs ->
  SampleAheadWaypoints known tol rs rate_in = Ok ws ->
  let step := cmax tol (cmin rate_in (arc rs)) in
  let at_step (i : nat) := inject_Z (Z.of_nat i) * step in
  exists n body tail,
    ws = body ++ tail /\ length body = S n /\
    at_step n <= arc rs /\ arc rs < at_step (S n) /\
    (forall i w, nth_error body i = Some w -> on_route rs (at_step i) w) /\
    (tail = [] /\ arc rs - at_step n <= tol \/
     exists w, tail = [w] /\ tol < arc rs - at_step n /\ on_route rs (arc rs) w).
Proof. exact sample_values. Qed.
Print Assumptions sample_waypoints_even.

(** Two lanes, of which the first is shorter than the step. *)
Definition two : list lsrange := [mk_lsrange 7 (mk_srange 1 3); mk_lsrange 8 (mk_srange 0 10)].
Example C19_example :
  exists ws, SampleAheadWaypoints (fun _ => true) (1#100) two 5 = Ok ws /\
    map (fun w => (fst w, Qred (snd w))) ws = [(7%nat, 1); (8%nat, 3); (8%nat, 8); (8%nat, 10)].
Proof. eexists. split; [vm_compute; reflexivity|vm_compute; reflexivity]. Qed.
Example C19_example_forwards : forwards two /\ two <> [].
Proof. split; [|discriminate]. intros r [<-|[<-|[]]]; simpl; lra. Qed.

(** Finding: a range travelled against s gets no sample at all, so consecutive
    waypoints may be any distance apart: here 10 on one lane with step 1. *)
Theorem sample_waypoints_backwards_refuted :
  exists known tol r rate ws,
    0 < tol /\ 0 <= s1 (s_range r) /\ s1 (s_range r) < s0 (s_range r) /\ 0 < rate /\ rate == size (s_range r) / 10 /\
    SampleAheadWaypoints known tol [r] rate = Ok ws /\
    ws = [(lane_id r, s0 (s_range r)); (lane_id r, s1 (s_range r))].
Proof.
  exists (fun _ => true), (1#100), (mk_lsrange 7 (mk_srange 10 0)), 1, [(7%nat, 10); (7%nat, 0)].
  repeat split; try (simpl; lra).
Qed.
Print Assumptions sample_waypoints_backwards_refuted.

(** Finding: an empty route dereferences [ranges.front()]. *)
Theorem sample_waypoints_empty_refuted :
  exists known tol rate, 0 < tol /\ 0 < rate /\ SampleAheadWaypoints known tol [] rate = UB.
Proof. exists (fun _ => true), 1, 1. repeat split; lra. Qed.
Print Assumptions sample_waypoints_empty_refuted.
