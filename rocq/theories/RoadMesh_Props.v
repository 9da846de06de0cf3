(** C50: the road surface meshes; C62: stripes, arrows and grid units. *)
From Coq Require Import List QArith Qround Qabs Lqa Bool Arith ZArith Lia.
From Verif Require Import Base RoadMesh_Model RoadMesh_Spec RoadMesh_Proofs RoadMesh_Proofs2 RoadMesh_Proofs3.
Import ListNotations.
Local Open Scope Q_scope.

(** ** C50: GeneratePreciseRoadMesh *)

(** For all lanes, grids and elevations the mesh is generated, all vertices lie on the
    surface at the asked elevation, no two faces overlap, all go round counterclockwise, and
    every position that is within the bounds at all stations up to one grid unit (plus the
    tolerance) away is covered.  What is missing of the full claim: positions closer than
    that to where the bounds change (see precise_mesh_tiles_refuted). *)
Theorem precise_mesh_tiles_partial l tol grid seg elevation : 0 < grid -> 0 <= tol -> proper (bounds l seg) ->
  exists fs, GeneratePreciseRoadMesh l tol grid seg elevation = Ok fs /\
  (forall f v, In f fs -> In v f -> h_of v = elevation (s_of v) (r_of v) /\ on_surface (bounds l seg) (length_ l) (s_of v) (r_of v)) /\
  (forall f, In f fs -> 0 < twice_area f) /\ no_overlap fs /\
  (forall s r, 0 <= s <= length_ l -> 0 < length_ l -> clear_of (bounds l seg) (length_ l) (grid + tol) s r -> exists f, In f fs /\ in_face f s r).
Proof.
  intros G T B. unfold GeneratePreciseRoadMesh. destruct (precise_loop_spec elevation grid G l tol T seg B (S (steps (length_ l) grid)) 0) as (fs & E & P & N & C); [lra| |].
  { pose proof (steps_enough (length_ l) grid G). rewrite qn_S. lra. }
  exists fs. split; auto. split; [|split; [|split; [auto|exact C]]].
  - intros f v If Iv. destruct (P f If) as [_ X]. destruct (X v Iv) as (X1 & X2 & X3). split; auto. split; auto.
  - intros f If. eapply precise_ccw; eauto.
Qed.
Print Assumptions precise_mesh_tiles_partial.

(** With constant bounds the tiling is exact: the faces cover all of the surface and nothing
    else. *)
Theorem precise_mesh_tiles_constant l tol grid seg elevation a b : 0 < grid -> 0 <= tol -> 0 < length_ l -> a < b -> a <= 0 <= b ->
  (forall s, rmin (bounds l seg s) == a /\ rmax (bounds l seg s) == b) ->
  exists fs, GeneratePreciseRoadMesh l tol grid seg elevation = Ok fs /\ no_overlap fs /\
  forall s r, (exists f, In f fs /\ in_face f s r) <-> 0 <= s <= length_ l /\ a <= r <= b.
Proof.
  intros G T L W Hab K. assert (B : proper (bounds l seg)) by (intro s; destruct (K s) as [-> ->]; auto).
  destruct (precise_mesh_tiles_partial l tol grid seg elevation G T B) as (fs & E & P & _ & N & C). exists fs. split; auto. split; auto. intros s r. split.
  - intros (f & I & X). split.
    + apply (in_face_s f s r 0 (length_ l) X). apply Forall_forall. intros v Iv. destruct (P f v I Iv) as (_ & Y & _). auto.
    + enough (a + 0 * s <= r <= b + 0 * s) by lra. apply (in_face_line f s r a 0 b 0 X). apply Forall_forall. intros v Iv. destruct (P f v I Iv) as (_ & _ & Y). destruct (K (s_of v)) as [K1 K2]. rewrite K1, K2 in Y. lra.
  - intros [Hs Hr]. apply C; auto. split.
    + intros s' _ _. destruct (K s'). lra.
    + destruct (Qlt_le_dec 0 b) as [D|D]; [right; left|right; right]; intros s' _ _; destruct (K s'); lra.
Qed.
Print Assumptions precise_mesh_tiles_constant.

Definition flat_road : lane := mk_lane 5 (fun _ => mk_rb (-2) 3) (fun _ => mk_rb (-2) 3) (fun _ _ _ => false).
Example precise_flat : proper (bounds flat_road true) /\ exists fs, GeneratePreciseRoadMesh flat_road (1 # 100) 2 true (fun _ _ => 0) = Ok fs /\ length fs = 9%nat.
Proof. split; [intro s; cbn; lra|]. eexists. split; [vm_compute; reflexivity|reflexivity]. Qed.

(** Finding: where the lane widens, part of the surface is missing.  A lane that starts with
    no width and opens to two metres gets no face at all in its first strip. *)
Definition opening_road : lane := mk_lane 1 (fun s => mk_rb (- s) s) (fun s => mk_rb (- s) s) (fun _ _ _ => false).
Definition widening_road : lane := mk_lane 1 (fun s => mk_rb 0 (1 + s)) (fun s => mk_rb 0 (1 + s)) (fun _ _ _ => false).
Theorem precise_mesh_tiles_refuted :
  (exists l tol grid elevation s r, 0 < grid /\ 0 <= tol /\ (forall s, 0 <= s -> rmin (bounds l true s) <= 0 <= rmax (bounds l true s)) /\
     0 < s < length_ l /\ rmin (bounds l true s) < r < rmax (bounds l true s) /\ GeneratePreciseRoadMesh l tol grid true elevation = Ok []) /\
  (exists l tol grid elevation s r fs, 0 < grid /\ 0 <= tol /\ (forall s, 0 <= s -> rmin (bounds l true s) <= 0 <= rmax (bounds l true s)) /\
     0 < s < length_ l /\ 1 <= rmax (bounds l true 0) /\ rmin (bounds l true s) < r < rmax (bounds l true s) /\
     GeneratePreciseRoadMesh l tol grid true elevation = Ok fs /\ fs <> [] /\ forall f, In f fs -> ~ in_face f s r).
Proof.
  split.
  - exists opening_road, (1 # 100), 1, (fun _ _ => 0), (1 # 2), 0. repeat (split; [solve [cbn; intros; lra]|]). vm_compute. reflexivity.
  - exists widening_road, (1 # 100), 1, (fun _ _ => 0), (1 # 2), (5 # 4). eexists. repeat (split; [solve [cbn; intros; lra]|]). split; [vm_compute; reflexivity|]. split; [discriminate|].
    intros f [<-|[]] X. apply (in_face_line _ _ _ 0 0 1 0) in X; [lra|]. unfold s_of, r_of. repeat constructor; cbn; lra.
Qed.
Print Assumptions precise_mesh_tiles_refuted.

(** ** C50: GenerateOptimizedRoadMesh *)

(** For all lanes and grids, whatever steps the distances in space allow: the mesh is
    generated, its vertices lie on the surface, and the area between the bounds interpolated
    from station to station is covered; with a positive width everywhere, faces do not
    overlap and go round counterclockwise. *)
Theorem optimized_mesh_covers l grid seg elevation : 0 < grid -> 0 < length_ l -> proper (bounds l seg) ->
  exists fs, GenerateOptimizedRoadMesh l grid seg elevation = Ok fs /\
  (forall f v, In f fs -> In v f -> h_of v = elevation (s_of v) (r_of v) /\ on_surface (bounds l seg) (length_ l) (s_of v) (r_of v)) /\
  ((forall s, rmin (bounds l seg s) < rmax (bounds l seg s)) -> no_overlap fs /\ forall f, In f fs -> 0 < twice_area f) /\
  (forall s, 0 <= s <= length_ l -> exists a b t, 0 <= a < b /\ b <= length_ l /\ 0 <= t <= 1 /\ s == between t a b /\
     forall r, between t (rmin (bounds l seg a)) (rmin (bounds l seg b)) <= r <= between t (rmax (bounds l seg a)) (rmax (bounds l seg b)) -> exists f, In f fs /\ in_face f s r).
Proof.
  intros G L B. unfold GenerateOptimizedRoadMesh. destruct (optimized_loop_spec elevation grid G l seg B (S (steps (length_ l) grid)) 0) as (fs & E & P & N & C); [lra| |].
  { pose proof (steps_enough (length_ l) grid G). rewrite qn_S. lra. }
  exists fs. split; auto. split; [|split].
  - intros f v If Iv. destruct (P f If) as [_ X]. destruct (X v Iv) as (X1 & X2 & X3). split; auto. split; auto.
  - intro W. split; [auto|]. apply (optimized_ccw (S (steps (length_ l) grid)) l grid seg elevation G W 0 fs); auto; lra.
  - intros s Hs. apply C; auto.
Qed.
Print Assumptions optimized_mesh_covers.

(** With bounds that are straight lines the tiling is exact. *)
Theorem optimized_mesh_tiles_linear l grid seg elevation a a' b b' : 0 < grid -> 0 < length_ l -> proper (bounds l seg) ->
  (forall s, rmin (bounds l seg s) == a + a' * s /\ rmax (bounds l seg s) == b + b' * s) ->
  exists fs, GenerateOptimizedRoadMesh l grid seg elevation = Ok fs /\
  forall s r, (exists f, In f fs /\ in_face f s r) <-> on_surface (bounds l seg) (length_ l) s r.
Proof.
  intros G L B K. destruct (optimized_mesh_covers l grid seg elevation G L B) as (fs & E & P & _ & C). exists fs. split; auto. intros s r. unfold on_surface. destruct (K s) as [K1 K2]. rewrite K1, K2. split.
  - intros (f & I & X). split.
    + apply (in_face_s f s r 0 (length_ l) X). apply Forall_forall. intros v Iv. destruct (P f v I Iv) as (_ & Y & _). auto.
    + apply (in_face_line f s r a a' b b' X). apply Forall_forall. intros v Iv. destruct (P f v I Iv) as (_ & _ & Y). destruct (K (s_of v)). lra.
  - intros [Hs Hr]. destruct (C s Hs) as (x & y & t & X1 & X2 & X3 & X4 & X5). apply X5. destruct (K x) as [Kx Kx']. destruct (K y) as [Ky Ky']. unfold between in *. rewrite Kx, Kx', Ky, Ky'. rewrite X4 in Hr. lra.
Qed.
Print Assumptions optimized_mesh_tiles_linear.

(** Finding: the steps are chosen by the bounds at their two ends only, so an extra width in
    between is skipped however wide it is.  On a straight, flat lane the distance in space
    from the left (right) bound at [s0] to that at [s0 + step] is the square root of
    step^2 + dr^2; compared exactly by squares. *)
Definition straight_deviates (b : Q -> rbounds) (grid s0 step : Q) : bool :=
  let far (d : Q) := Qltb ((step + grid) * (step + grid)) (step * step + d * d) in
  far (rmax (b (s0 + step)) - rmax (b s0)) || far (rmin (b (s0 + step)) - rmin (b s0)).
Definition bay (m s : Q) : rbounds := mk_rb (-2) (if Qleb 3 s && Qleb s 5 then 2 + m else 2).
Definition bay_road (m : Q) : lane := mk_lane 8 (bay m) (bay m) (straight_deviates (bay m)).
Theorem optimized_mesh_tiles_refuted : forall m, 0 < m -> exists l grid fs, 0 < grid /\ proper (bounds l true) /\ deviates l = straight_deviates (lane_bounds l) /\
  GenerateOptimizedRoadMesh l grid true (fun _ _ => 0) = Ok fs /\
  (forall s, 3 <= s <= 5 -> rmax (bounds l true s) == 2 + m) /\ forall f s r, In f fs -> in_face f s r -> r <= 2.
Proof.
  intros m M. exists (bay_road m), 3. eexists. split; [reflexivity|]. split.
  { intro s. cbn. unfold bay. cbn [rmin rmax]. destruct (Qleb 3 s && Qleb s 5); lra. }
  split; [reflexivity|].
  assert (E : GenerateOptimizedRoadMesh (bay_road m) 3 true (fun _ _ => 0) = Ok (two_triangles (bay_road m) true (fun _ _ => 0) 0 8)) by (vm_compute; reflexivity).
  split; [exact E|]. split.
  - intros s Hs. cbn. unfold bay. destruct (Qleb_spec 3 s); [|lra]. destruct (Qleb_spec s 5); [|lra]. cbn. lra.
  - intros f s r I X. assert (Y : forall v, In v f -> -2 <= r_of v <= 2). { clear X E. intros v Iv. vm_compute in I. repeat (destruct I as [<-|I]; [repeat (destruct Iv as [<-|Iv]; [vm_compute; split; discriminate|]); destruct Iv|]). destruct I. }
    apply (in_face_line f s r (-2) 0 2 0) in X; [lra|]. apply Forall_forall. intros v Iv. specialize (Y v Iv). lra.
Qed.
Print Assumptions optimized_mesh_tiles_refuted.
Example optimized_flat : exists fs, GenerateOptimizedRoadMesh flat_road 2 true (fun _ _ => 0) = Ok fs /\ length fs = 2%nat.
Proof. eexists. split; [vm_compute; reflexivity|reflexivity]. Qed.
Definition wedge : lane := mk_lane 6 (fun s => mk_rb (- (1 + s)) 2) (fun s => mk_rb (- (1 + s)) 2) (fun _ _ step => Qltb 2 step).
Example optimized_wedge : exists fs, GenerateOptimizedRoadMesh wedge 2 true (fun _ _ => 0) = Ok fs /\ length fs = 6%nat.
Proof. eexists. split; [vm_compute; reflexivity|reflexivity]. Qed.

(** ** C62: stripes, arrows, grid units *)

(** The stripes follow both bounds, interpolated over steps no longer than the grid unit plus
    the tolerance, half the width to each side, over the whole length. *)
Theorem stripes_follow_bounds l tol grid h width : 0 < grid -> 0 <= tol -> 0 <= width ->
  exists fs, StripeLaneBounds l tol grid h width = Ok fs /\
  (forall f v, In f fs -> In v f -> h_of v = h /\ 0 <= s_of v <= length_ l /\
     exists e, (e == width / 2 \/ e == - (width / 2)) /\ (r_of v == rmin (lane_bounds l (s_of v)) + e \/ r_of v == rmax (lane_bounds l (s_of v)) + e)) /\
  (forall s, 0 <= s <= length_ l -> 0 < length_ l -> exists a b t, 0 <= a < b /\ b <= length_ l /\ b - a <= grid + tol /\ 0 <= t <= 1 /\ s == between t a b /\
     forall d, - (width / 2) <= d <= width / 2 ->
       (exists f, In f fs /\ in_face f s (between t (rmin (lane_bounds l a)) (rmin (lane_bounds l b)) + d)) /\
       (exists f, In f fs /\ in_face f s (between t (rmax (lane_bounds l a)) (rmax (lane_bounds l b)) + d))).
Proof.
  intros G T W. assert (E2 : (1 # 2) * width == width / 2) by field. unfold StripeLaneBounds.
  assert (Hw : 0 <= (1 # 2) * width) by lra.
  destruct (stripe_loop_spec grid G l tol T h ((1 # 2) * width) (S (steps (length_ l) grid)) 0) as (fs & E & P & C); [lra| |].
  { pose proof (steps_enough (length_ l) grid G). rewrite qn_S. lra. }
  exists fs. split; auto. split.
  - intros f v If Iv. destruct (P f v If Iv) as (X1 & X2 & X3). split; auto. split; auto. destruct X3 as [X|[X|[X|X]]].
    + exists (- (width / 2)). split; [right; reflexivity|left; rewrite X, E2; ring].
    + exists (width / 2). split; [left; reflexivity|left; rewrite X, E2; ring].
    + exists (- (width / 2)). split; [right; reflexivity|right; rewrite X, E2; ring].
    + exists (width / 2). split; [left; reflexivity|right; rewrite X, E2; ring].
  - intros s Hs L. destruct (C s Hs L) as (a & b & t & A1 & A2 & A3 & A4 & A5 & A6). exists a, b, t. repeat (split; [solve [auto]|]). intros d D. apply A6. rewrite E2. auto.
Qed.
Print Assumptions stripes_follow_bounds.
Example stripes_flat : exists fs, StripeLaneBounds flat_road (1 # 100) 2 (1 # 20) (1 # 4) = Ok fs /\ length fs = 6%nat.
Proof. eexists. split; [vm_compute; reflexivity|reflexivity]. Qed.

(** MarkLaneEnds never aborts; each arrow it draws fills exactly its triangle, lies within
    the length of the lane at least the tolerance away from both its ends (base for the
    first, tip for the second), and is no longer than 30% of the lane. *)
Theorem lane_arrows l tol grid h : 0 < grid -> 0 <= tol -> 0 <= length_ l -> proper (lane_bounds l) ->
  exists a b, MarkLaneEnds l tol grid h = Ok (a ++ b) /\
  (a = [] \/ exists base size, tol < size <= (3 # 10) * length_ l /\ base == tol /\ tol + size < length_ l /\ fills_triangle l base size h a) /\
  (b = [] \/ exists base size, tol < size <= (3 # 10) * length_ l /\ 0 < base /\ base + size == length_ l - tol /\ fills_triangle l base size h b).
Proof.
  intros G T L B. unfold MarkLaneEnds. set (m := (3 # 10) * length_ l).
  set (x := cmin m (rmax (lane_bounds l 0) - rmin (lane_bounds l 0))). set (y := cmin m (rmax (lane_bounds l (length_ l)) - rmin (lane_bounds l (length_ l)))).
  assert (X : x <= m) by (unfold x, cmin; qcases; lra). assert (Y : y <= m) by (unfold y, cmin; qcases; lra).
  destruct (Qltb_spec (tol + x) (length_ l)) as [C1|C1], (Qltb_spec tol x) as [C2|C2], (Qltb_spec 0 (length_ l - tol - y)) as [C3|C3], (Qltb_spec tol y) as [C4|C4]; cbn [andb];
  repeat match goal with
  | |- context [DrawLaneArrow l grid ?o ?z h] => let F := fresh "F" in let fs := fresh "fs" in destruct (draw_arrow_spec l grid o z h G B) as (fs & -> & F); [lra|lra|lra|]; cbn [obind]
  end; cbn [obind]; eexists _, _; (split; [reflexivity|]); (split; [try (left; reflexivity); right; eexists _, _; (split; [split; [exact C2|exact X]|]); (split; [|split; [|exact F]]); lra|try (left; reflexivity); right; eexists _, _; (split; [split; [exact C4|exact Y]|]); (split; [|split; [|first [exact F0|exact F]]]); lra]).
Qed.
Print Assumptions lane_arrows.
Example arrows_flat : exists fs, MarkLaneEnds flat_road (1 # 100) 1 (1 # 20) = Ok fs /\ length fs = 24%nat.
Proof. eexists. split; [vm_compute; reflexivity|reflexivity]. Qed.

(** On its own, an arrow that does not fit between the ends of the lane is refused. *)
Theorem arrow_drawn l grid base size h : 0 < grid -> 0 < size -> proper (lane_bounds l) ->
  (0 <= base /\ base + size <= length_ l /\ exists fs, DrawLaneArrow l grid base size h = Ok fs /\ fills_triangle l base size h fs) \/
  ((base < 0 \/ length_ l < base + size) /\ DrawLaneArrow l grid base size h = Throw).
Proof.
  intros G S B. destruct (Qlt_le_dec base 0) as [X|X]; [|destruct (Qlt_le_dec (length_ l) (base + size)) as [Y|Y]].
  - right. split; [auto|]. unfold DrawLaneArrow. destruct (Qleb_spec 0 base); [lra|reflexivity].
  - right. split; [auto|]. unfold DrawLaneArrow. destruct (Qleb_spec 0 base); [|lra]. destruct (Qleb_spec (base + size) (length_ l)); [lra|reflexivity].
  - left. split; [auto|]. split; [auto|]. apply draw_arrow_spec; auto.
Qed.
Print Assumptions arrow_drawn.
Example arrow_flat : (exists fs, DrawLaneArrow flat_road 1 1 2 0 = Ok fs) /\ DrawLaneArrow flat_road 1 (length_ flat_road - 1) 2 0 = Throw.
Proof. split; [eexists|]; vm_compute; reflexivity. Qed.

(** Finding: an arrow may leave the lane, since only the bounds at its base count. *)
Definition narrowing : Q -> rbounds := fun s => if Qltb s (1 # 2) then mk_rb (-2) 2 else mk_rb (- 1 # 10) (1 # 10).
Definition narrow_road : lane := mk_lane 10 narrowing narrowing (fun _ _ _ => false).
Definition narrow_arrows : list face := Eval vm_compute in match MarkLaneEnds narrow_road (1 # 100) 1 0 with Ok fs => fs | _ => [] end.
Definition narrow_face : face := Eval vm_compute in nth 6 narrow_arrows [].
Definition narrow_vertex : srh := Eval vm_compute in nth 3 narrow_face (0, 0, 0).
Theorem lane_arrows_within_lane_refuted : exists l tol grid h fs f v, 0 < tol /\ 0 < grid /\ proper (lane_bounds l) /\ MarkLaneEnds l tol grid h = Ok fs /\ In f fs /\ In v f /\ rmax (lane_bounds l (s_of v)) < r_of v.
Proof.
  exists narrow_road, (1 # 100), 1, 0, narrow_arrows, narrow_face, narrow_vertex. split; [reflexivity|]. split; [reflexivity|]. split.
  { intro s. cbn. unfold narrowing. destruct (Qltb s (1 # 2)); cbn; lra. }
  split; [vm_compute; reflexivity|]. split; [vm_compute; tauto|]. split; [vm_compute; tauto|]. vm_compute. reflexivity.
Qed.
Print Assumptions lane_arrows_within_lane_refuted.

(** The grid unit is at least the tolerance, at most the maximum (or the tolerance, if that is
    larger), and otherwise the largest that divides the width at both ends and the length
    into at least [res] parts. *)
Theorem grid_unit l max_size res tol : 0 < res -> 0 < tol ->
  let fits x := x <= max_size /\ x * res <= length_ l /\ forall s, s = 0 \/ s = length_ l -> x * res <= rmax (lane_bounds l s) - rmin (lane_bounds l s) in
  let g := PickGridUnit l max_size res tol in
  0 < tol <= g /\ (g <= max_size \/ g == tol) /\ (forall x, fits x -> x <= g) /\
  (tol < g -> tol <= length_ l -> (forall s, s = 0 \/ s = length_ l -> tol <= rmax (lane_bounds l s) - rmin (lane_bounds l s)) -> fits g).
Proof.
  intros R T fits g. subst fits. cbn beta. unfold PickGridUnit in g.
  set (w0 := rmax (lane_bounds l 0) - rmin (lane_bounds l 0)) in g. set (w1 := rmax (lane_bounds l (length_ l)) - rmin (lane_bounds l (length_ l))) in g.
  set (d0 := cmax w0 tol / res) in g. set (d1 := cmax w1 tol / res) in g. set (d2 := cmax (length_ l) tol / res) in g.
  assert (E0 : d0 * res == cmax w0 tol) by (unfold d0; field; lra). assert (E1 : d1 * res == cmax w1 tol) by (unfold d1; field; lra). assert (E2 : d2 * res == cmax (length_ l) tol) by (unfold d2; field; lra).
  assert (M0 : w0 <= cmax w0 tol) by (unfold cmax; qcases; lra). assert (M1 : w1 <= cmax w1 tol) by (unfold cmax; qcases; lra). assert (M2 : length_ l <= cmax (length_ l) tol) by (unfold cmax; qcases; lra).
  set (c := cmin (cmin (cmin max_size d0) d1) d2) in g.
  assert (Hc : c <= max_size /\ c <= d0 /\ c <= d1 /\ c <= d2) by (unfold c, cmin; qcases; lra).
  assert (Hc' : forall x, x <= max_size -> x <= d0 -> x <= d1 -> x <= d2 -> x <= c) by (intros; unfold c, cmin; qcases; lra).
  assert (Hg : tol <= g /\ c <= g /\ (g == c \/ g == tol)) by (unfold g, cmax; qcases; lra).
  assert (Cancel : forall x y, x * res <= y * res -> x <= y) by (intros x y Z; apply (Qmult_le_r x y res R); auto).
  split; [lra|]. split; [destruct Hg as (_ & _ & [->| ->]); [left; lra|right; reflexivity]|]. split.
  - intros x (X1 & X2 & X3). pose proof (X3 0 (or_introl eq_refl)) as X4. pose proof (X3 _ (or_intror eq_refl)) as X5. fold w0 in X4. fold w1 in X5.
    enough (x <= c) by lra. apply Hc'; [auto| | |]; apply Cancel; lra.
  - intros H L W. pose proof (W 0 (or_introl eq_refl)) as W0. pose proof (W _ (or_intror eq_refl)) as W1. fold w0 in W0. fold w1 in W1.
    assert (Eg : g == c) by (destruct Hg as (_ & _ & [X|X]); [auto|lra]). assert (cmax w0 tol == w0) by (unfold cmax; qcases; lra). assert (cmax w1 tol == w1) by (unfold cmax; qcases; lra). assert (cmax (length_ l) tol == length_ l) by (unfold cmax; qcases; lra).
    assert (Mono : forall d, c <= d -> g * res <= d * res) by (intros d D; rewrite Eg; apply Qmult_le_compat_r; lra).
    destruct Hc as (J0 & J1 & J2 & J3). apply Mono in J1, J2, J3. split; [lra|]. split; [lra|]. intros s [->| ->]; [fold w0|fold w1]; lra.
Qed.
Print Assumptions grid_unit.
Example grid_unit_flat : PickGridUnit flat_road 1 5 (1 # 100) == 1 /\ PickGridUnit flat_road 3 10 (1 # 100) == 1 # 2.
Proof. split; vm_compute; reflexivity. Qed.
