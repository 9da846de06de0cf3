(** C109: road position searches over a tree of sampled points, on doubles. *)
From Coq Require Import List Permutation ZArith Lia Bool.
From Coq Require Import Floats.SpecFloat.
From Verif Require Import Base Binary64 Binary64_Round Binary64_Order Binary64_Ext KdTree_Model KdFloat_Model KdFloat_Spec KdFloat_Props Doubles_Model Doubles_Spec KdRange_Model Closest_Model Closest_Spec Closest_Proofs KdRange_Props Closest_Props Closest_Proofs2.
Import ListNotations.
Local Open Scope Z_scope.

(** FindRoadPositions over the tree of any sampled points, for any finite point and any radius that is not negative:
    it returns positions on lanes that were sampled, at most the radius away, and among them that of every lane that
    is at most the radius away and has a sampled point in the cube around the point, by exact comparisons. *)
Theorem kd_find_rounded : forall to_lane nth_element pts p radius, nth_element_finite mpoint mpoint_coord nth_element ->
  pts <> [] -> sampled pts -> vec_double p -> number radius -> 0 <= place radius ->
  exists t res, fKDTree3D mpoint mpoint_coord nth_element pts = Ok t /\ fKDFindRoadPositions to_lane t p radius = Ok res /\
    (forall x, In x res -> exists m lane, In m pts /\ snd m = Some lane /\ x = to_lane lane /\ fle (fr_dist x) radius = true) /\
    (forall m lane, In m pts -> snd m = Some lane -> in_cube p radius m -> fle (fr_dist (to_lane lane)) radius = true -> In (to_lane lane) res).
Proof.
  intros to_lane ne pts p radius N NE S P R G. destruct (closest_lanes ne pts p radius N NE S P R G) as (t & ls & E & C & _ & I & J).
  exists t. eexists. split; [exact E|]. split; [unfold fKDFindRoadPositions; rewrite C; reflexivity|]. split.
  - intros x X. apply filter_In in X as (X & F). apply in_map_iff in X as (l & <- & L). destruct (I l L) as (m & M & Sm & _). exists m, l. auto.
  - intros m lane M Sm Q F. apply filter_In. split; [apply in_map, (J m lane M Sm Q)|exact F].
Qed.
Print Assumptions kd_find_rounded.

(** ToRoadPosition without hint always returns, given finite distances to the lanes.  With [m] the sampled point
    found nearest, the result is the position on a lane that was sampled; it is no further than the position on the
    lane of [m], nor than that of any lane with a sampled point in the cube reaching two sampling steps beyond [m], but
    for 1e-12, with one part in 2^53 of it, per sampled point. *)
Theorem kd_to_road_position_rounded : exists e, about_1e12 e /\
  forall lane_bounds to_lane nth_element pts step p, nth_element_finite mpoint mpoint_coord nth_element ->
  pts <> [] -> sampled pts -> vec_double p -> is_double step -> 0 <= val step ->
  (forall m lane, In m pts -> snd m = Some lane -> is_double (fr_dist (to_lane lane))) ->
  exists t x m, fKDTree3D mpoint mpoint_coord nth_element pts = Ok t /\ fKDToRoadPosition lane_bounds to_lane t step p None = Ok x /\
    In m pts /\
    (flt (rounded_sq mpoint mpoint_coord 3 m (p, None)) (fof 1 (-1022)) = true \/
     forall m', In m' pts -> fle (rounded_sq mpoint mpoint_coord 3 m (p, None)) (rounded_sq mpoint mpoint_coord 3 m' (p, None)) = true) /\
    (exists m' lane, In m' pts /\ snd m' = Some lane /\ x = to_lane lane) /\
    (forall m' lane, In m' pts -> snd m' = Some lane -> m' = m \/ in_cube p (fadd (distance_to p (fst m)) (fmul (fint 2) step)) m' ->
       (2 ^ 53 - 1) * (val (fr_dist x) - val (fr_dist (to_lane lane))) <= Z.of_nat (List.length pts) * (2 ^ 53 * e)).
Proof.
  exists (val literal_eps). split; [apply eps_about|]. intros lb to_lane ne pts step p N NE S P St S0 F. pose proof (proj2 eps_about) as E0.
  assert (FQ : finite_point mpoint mpoint_coord 3 (p, None)) by (intros i L; destruct P as (A & B & C); destruct i as [|[|[|i]]]; [exact A|exact B|exact C|lia]).
  assert (T : is_double double_min /\ 0 < val double_min) by (split; [split; vm_compute; reflexivity|vm_compute; reflexivity]). destruct T as (T & T0).
  destruct (nearest_is_rounded_minimum mpoint mpoint_coord 3 ne pts (p, None) double_min ltac:(lia) N NE (sampled_finite pts S) FQ T T0) as (t0 & m & E1 & E2 & IM & MIN). clear T T0.
  destruct (S m IM) as (DM & lm & Lm). destruct (half_edge p (fst m) step P DM St S0) as (NH & GH).
  destruct (closest_lanes ne pts p _ N NE S P NH GH) as (t & ls & E & C & LL & I & J). rewrite (without_regions_tree _ _ _ _ E) in E1. injection E1 as E1. subst t0.
  set (x := fpick lb (to_lane lm) (map to_lane ls)). exists t, x, m. split; [exact E|]. split.
  { unfold fKDToRoadPosition, fClosestLane, fnearest_point_default. rewrite E2. cbn [obind]. rewrite C. cbn [obind]. rewrite Lm. reflexivity. }
  split; [exact IM|]. split; [exact MIN|].
  assert (FL : forall y, In y (to_lane lm :: map to_lane ls) -> is_double (fr_dist y)).
  { intros y [<-|Y]; [exact (F m lm IM Lm)|]. apply in_map_iff in Y as (l & <- & L). destruct (I l L) as (m' & M' & S' & _). exact (F m' l M' S'). }
  split.
  - destruct (pick_in lb (map to_lane ls) (to_lane lm)) as [X|X]; [exists m, lm; auto|]. apply in_map_iff in X as (l & X & L). destruct (I l L) as (m' & M' & S' & _). exists m', l. auto.
  - intros m' lane M' S' Q. assert (LE : Z.of_nat (List.length (map to_lane ls)) * (2 ^ 53 * val literal_eps) <= Z.of_nat (List.length pts) * (2 ^ 53 * val literal_eps)).
    { apply Z.mul_le_mono_nonneg_r; [apply Z.mul_nonneg_nonneg; [discriminate|apply Z.lt_le_incl, E0]|]. apply Nat2Z.inj_le. rewrite map_length. exact LL. }
    eapply Z.le_trans; [|exact LE]. destruct Q as [->|Q].
    + rewrite Lm in S'. injection S' as <-. pose proof (pick_drift lb (map to_lane ls) (to_lane lm) FL) as D. fold x in D. clear - D E0.
      revert D E0. generalize (val literal_eps), (val (fr_dist x)), (val (fr_dist (to_lane lm))). intros ep a b D E0. pose proof (Z.mul_nonneg_nonneg (Z.of_nat (List.length (map to_lane ls))) ep (Nat2Z.is_nonneg _) ltac:(lia)). lia.
    + apply pick_closest; [exact FL|apply in_map, (J m' lane M' S' Q)].
Qed.
Print Assumptions kd_to_road_position_rounded.

(** A point with a NaN coordinate is refused by both queries. *)
Theorem kd_refuses_nan : forall lane_bounds to_lane nth_element pts step p radius t, fKDTree3D mpoint mpoint_coord nth_element pts = Ok t ->
  In fnan [vx p; vy p; vz p] ->
  fKDFindRoadPositions to_lane t p radius = Throw /\ fKDToRoadPosition lane_bounds to_lane t step p None = Throw.
Proof.
  intros lb to_lane ne pts step p radius t E H. assert (C : forall h, fClosestLanes t p h = Throw).
  { intros h. unfold fClosestLanes. cbv zeta. rewrite region_refuses_nan; [reflexivity|]. cbn [vx vy vz In] in *. assert (X : forall y, fsub fnan y = fnan) by (intros []; reflexivity).
    destruct H as [H|[H|[H|[]]]]; rewrite H, X; tauto. }
  split; [unfold fKDFindRoadPositions; rewrite C; reflexivity|]. unfold fKDToRoadPosition, fClosestLane, fnearest_point_default.
  apply without_regions_tree in E. destruct (without_regions t) as [|q j a b] eqn:W; [reflexivity|].
  assert (Q : exists i, (i < 3)%nat /\ mpoint_coord (p, None) i = fnan) by (destruct H as [H|[H|[H|[]]]]; [exists 0%nat|exists 1%nat|exists 2%nat]; (split; [lia|exact H])). destruct Q as (i & Li & Q).
  rewrite (nearest_of_nan mpoint mpoint_coord 3 q j a b (p, None) double_min i Li Q ltac:(split; vm_compute; reflexivity) ltac:(vm_compute; reflexivity)). cbn [obind]. rewrite C. reflexivity.
Qed.
Print Assumptions kd_refuses_nan.

(** ** Examples *)
Definition sort_mpoints (i : nat) (k : nat) (l : list mpoint) : list mpoint := fold_right (fun x s => (fix ins (s : list mpoint) := match s with [] => [x] | y :: s' => if fle (mpoint_coord x i) (mpoint_coord y i) then x :: s else y :: ins s' end) s) [] l.
Definition grid : list mpoint := map (fun '(x, y, l) => (mk_vec (fint x) (fint y) fzero, Some l)) [(0, 0, 0%nat); (1, 0, 0%nat); (2, 0, 0%nat); (0, 3, 1%nat); (1, 3, 1%nat); (2, 3, 1%nat)].
Example grid_sampled : sampled grid.
Proof. intros m M. cbn [grid map] in M. repeat (destruct M as [<-|M]; [split; [split; [split; reflexivity|split; split; reflexivity]|eexists; reflexivity]|]). destruct M. Qed.
Definition grid_lane (l : nat) : fresult := mk_fresult l fzero fzero (match l with 0%nat => fof 5 (-2) | _ => fof 7 (-2) end).
Definition grid_point : vec := mk_vec (fint 1) (fof 5 (-2)) fzero.
Example grid_search : obind (fKDTree3D mpoint mpoint_coord sort_mpoints grid) (fun t => fKDFindRoadPositions grid_lane t grid_point (fof 3 (-1))) = Ok [grid_lane 0; grid_lane 0; grid_lane 0] /\
  obind (fKDTree3D mpoint mpoint_coord sort_mpoints grid) (fun t => fKDToRoadPosition unit_bounds grid_lane t (fint 1) grid_point None) = Ok (grid_lane 0).
Proof. split; vm_compute; reflexivity. Qed.

(** Finding: a radius that is negative, which brute force refuses, is accepted when it is lost in rounding. *)
Theorem kd_find_negative_refuted : exists t p radius, fKDTree3D mpoint mpoint_coord sort_mpoints grid = Ok t /\ is_double radius /\ val radius < 0 /\
  fKDFindRoadPositions grid_lane t p radius = Ok [] /\ fFindRoadPositions grid_lane [] radius = Throw.
Proof.
  destruct (fKDTree3D mpoint mpoint_coord sort_mpoints grid) as [t| |] eqn:E; [|vm_compute in E; discriminate|vm_compute in E; discriminate]. exists t, (mk_vec (fint 1) (fint 1) (fint 1)), (fof (-1) (-60)).
  split; [reflexivity|]. split; [split; vm_compute; reflexivity|]. split; [vm_compute; reflexivity|]. split; [|vm_compute; reflexivity].
  transitivity (obind (fKDTree3D mpoint mpoint_coord sort_mpoints grid) (fun t => fKDFindRoadPositions grid_lane t (mk_vec (fint 1) (fint 1) (fint 1)) (fof (-1) (-60)))); [rewrite E; reflexivity|vm_compute; reflexivity].
Qed.
Print Assumptions kd_find_negative_refuted.
