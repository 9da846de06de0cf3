(** C68: orientations of the road and the distances between them. *)
From Coq Require Import Reals Lra Lia Psatz List.
From Verif Require Import Base Matrix_Model Rotation_Model Rotation_Spec Rotation_Proofs Rotation_Proofs2 Quaternion_Props Quaternion2_Props RollPitchYaw_Props LaneData_Model LaneData_Spec LaneData_Proofs.
Import ListNotations.
Local Open Scope R_scope.

(** Every Rotation rotates, and its matrix is that rotation. *)
Theorem orientation_rotates : forall r, made r -> rotation (apply r) /\ forall v, linear (rot_matrix r) v = apply r v.
Proof.
  intros r M. apply made_unit in M. split; [apply transform_rotation; exact M|]. intro v. unfold rot_matrix, apply. rewrite rotation_matrix_transforms. f_equal. apply normalized_unit_id. exact M.
Qed.
(** FromRpy: roll about x, then pitch about y, then yaw about z; rpy() of the result. *)
Theorem orientation_of_rpy : forall a v, apply (from_rpy a) v = linear (times (rot_z (yaw a)) (times (rot_y (pitch a)) (rot_x (roll a)))) v.
Proof.
  intros a v. destruct (rpy_quaternion a) as (U & E). destruct (orientation_rotates (from_rpy a) (made_rpy a)) as (_ & <-). unfold rot_matrix, from_rpy, from_quat. rewrite <- matrix_normalized.
  unfold linear. pose proof (rpy_matrix_product a) as P. apply vec_eq; cbn [vx vy vz]; rewrite !E, !P by repeat constructor; reflexivity.
Qed.
(** Reverse: s and r point the other way, h stays; twice is the same orientation. *)
Lemma half_turn : quat_angle_axis PI (V3 0 0 1) = Qn 0 0 0 1.
Proof.
  unfold quat_angle_axis. assert (N : vnorm (V3 0 0 1) = 1) by (unfold vnorm; cbn; replace (0 * 0 + 0 * 0 + 1 * 1) with 1 by ring; apply sqrt_1). rewrite N.
  destruct (Rlt_dec 1 qtol) as [L|L]; [pose proof qtol_small; lra|]. cbv zeta. cbn [vx vy vz]. replace (PI * / 2) with (PI / 2) by reflexivity. rewrite cos_PI2, sin_PI2. rewrite normalized_unit_id; [f_equal; field|]. unfold unit; cbn; field.
Qed.
Theorem reverse_turns : forall r, made r -> (forall v, apply (reverse r) v = apply r (V3 (- vx v) (- vy v) (vz v))) /\ same_orientation (reverse (reverse r)) r.
Proof.
  assert (T : forall r v, made r -> apply (reverse r) v = apply r (V3 (- vx v) (- vy v) (vz v))).
  { intros r v M. apply made_unit in M. unfold reverse, from_quat, apply. rewrite half_turn. assert (U : unit (Qn 0 0 0 1)) by (unfold unit; cbn; ring).
    rewrite normalized_unit_id by (apply unit_mul; assumption). rewrite transform_composed by assumption. f_equal. unfold transform_vector, vadd, vscale, vcross, qvec; cbn. apply vec_eq; cbn; ring. }
  intros r M. split; [intro v; apply T; exact M|]. intro v. rewrite T by (constructor; exact M). rewrite T by exact M. cbn [vx vy vz]. f_equal. apply vec_eq; cbn; ring.
Qed.

(** Distance is the root of the sum of the squared angles between the images of the axes. *)
Lemma apply_inner : forall r u v, made r -> inner (apply r u) (apply r v) = inner u v.
Proof. intros r u v M. apply transform_inner. apply made_unit. exact M. Qed.
Lemma axis_angle : forall a b e, made a -> made b -> inner e e = 1 -> angle_of (apply a e) (apply b e) (acos (inner (apply a e) (apply b e))).
Proof.
  intros a b e A B E. destruct (unit_angle (apply a e) (apply b e)) as (X & Y); try (rewrite apply_inner; assumption). split; [exact X|]. rewrite Y, !length_unit by (rewrite apply_inner; assumption). ring.
Qed.
Lemma distance_inner : forall a b, rot_distance a b = let angle := fun v => acos (inner (apply a v) (apply b v)) in length (V3 (angle (V3 1 0 0)) (angle (V3 0 1 0)) (angle (V3 0 0 1))).
Proof. intros a b. unfold rot_distance. cbv zeta. rewrite !vdot_inner. reflexivity. Qed.
Lemma e1 : inner (V3 1 0 0) (V3 1 0 0) = 1. Proof. unfold inner; cbn; ring. Qed.
Lemma e2 : inner (V3 0 1 0) (V3 0 1 0) = 1. Proof. unfold inner; cbn; ring. Qed.
Lemma e3 : inner (V3 0 0 1) (V3 0 0 1) = 1. Proof. unfold inner; cbn; ring. Qed.
Theorem distance_of_axes : forall a b, made a -> made b -> exists ds dr dh,
  angle_of (apply a (V3 1 0 0)) (apply b (V3 1 0 0)) ds /\ angle_of (apply a (V3 0 1 0)) (apply b (V3 0 1 0)) dr /\ angle_of (apply a (V3 0 0 1)) (apply b (V3 0 0 1)) dh /\
  0 <= rot_distance a b /\ rot_distance a b * rot_distance a b = ds * ds + dr * dr + dh * dh.
Proof.
  intros a b A B. do 3 eexists. split; [apply axis_angle; auto using e1|]. split; [apply axis_angle; auto using e2|]. split; [apply axis_angle; auto using e3|]. rewrite distance_inner. cbv zeta. split; [apply length_nonneg|]. rewrite length_sq. reflexivity.
Qed.
(** It is a distance between orientations. *)
Lemma axes_decide : forall a b, made a -> made b -> apply a (V3 1 0 0) = apply b (V3 1 0 0) -> apply a (V3 0 1 0) = apply b (V3 0 1 0) -> apply a (V3 0 0 1) = apply b (V3 0 0 1) -> same_orientation a b.
Proof.
  intros a b A B X Y Z v. destruct (orientation_rotates a A) as (_ & LA). destruct (orientation_rotates b B) as (_ & LB). rewrite <- LA, <- LB. rewrite <- LA, <- LB in X, Y, Z. clear LA LB. generalize dependent (rot_matrix a). generalize dependent (rot_matrix b). unfold linear. cbn [vx vy vz]. intros mb ma X Y Z.
  injection X as X1 X2 X3. injection Y as Y1 Y2 Y3. injection Z as Z1 Z2 Z3. assert (E : entries_equal ma mb) by (intros i j I J; destruct i as [|[|[|i]]], j as [|[|[|j]]]; solve [lia | lra]).
  rewrite !E by repeat constructor. reflexivity.
Qed.
Lemma unit_eq : forall u v, inner u u = 1 -> inner v v = 1 -> inner u v = 1 -> u = v.
Proof.
  intros u v U V W. assert (Z : length (vsub u v) = 0). { unfold length. replace (inner (vsub u v) (vsub u v)) with (inner u u + inner v v - 2 * inner u v) by (unfold inner, vsub; cbn; ring). rewrite U, V, W. replace (1 + 1 - 2 * 1) with 0 by ring. apply sqrt_0. }
  apply length_zero in Z. unfold vsub, zero3 in Z. injection Z as X Y Z. apply vec_eq; lra.
Qed.
Lemma length_flip : forall x y z, length (V3 x y z) = 0 -> x = 0 /\ y = 0 /\ z = 0.
Proof. intros x y z E. apply length_zero in E. injection E as -> -> ->. auto. Qed.
Theorem rotation_distance_metric : metric made same_orientation rot_distance.
Proof.
  intros a b c A B C. rewrite (distance_inner a b), (distance_inner b a), (distance_inner a c), (distance_inner b c). cbv zeta. split; [apply length_nonneg|]. split; [|split].
  - assert (S : forall v, inner (apply a v) (apply b v) = inner (apply b v) (apply a v)) by (intro; unfold inner; ring). rewrite !S. reflexivity.
  - split.
    + intro E. apply length_flip in E. destruct E as (X & Y & Z). assert (G : forall e, inner e e = 1 -> acos (inner (apply a e) (apply b e)) = 0 -> apply a e = apply b e).
      { intros e U H. apply unit_eq; try (rewrite apply_inner; assumption). destruct (unit_angle (apply a e) (apply b e)) as (_ & W); try (rewrite apply_inner; assumption). rewrite <- W, H. apply cos_0. }
      apply axes_decide; auto using e1, e2, e3.
    + intro S. rewrite !S, !apply_inner, e1, e2, e3, acos_1 by exact B. unfold length, inner; cbn. replace (0 * 0 + 0 * 0 + 0 * 0) with 0 by ring. apply sqrt_0.
  - eapply Rle_trans; [|apply length_add]. apply length_mono; unfold vadd; cbn [vx vy vz]; (split; [apply acos_bound|]); apply angle_triangle; rewrite apply_inner; auto using e1, e2, e3.
Qed.
(** Reversing both changes nothing. *)
Theorem distance_reversed : forall a b, made a -> made b -> rot_distance (reverse a) (reverse b) = rot_distance a b.
Proof.
  intros a b A B. rewrite !distance_inner. cbv zeta. destruct (reverse_turns a A) as (RA & _). destruct (reverse_turns b B) as (RB & _). rewrite !RA, !RB. cbn [vx vy vz].
  assert (G : forall u, inner (apply a (V3 (- vx u) (- vy u) (- vz u))) (apply b (V3 (- vx u) (- vy u) (- vz u))) = inner (apply a u) (apply b u)).
  { intro u. destruct (orientation_rotates a A) as (_ & LA). destruct (orientation_rotates b B) as (_ & LB). rewrite <- !LA, <- !LB. unfold linear, inner. cbn [vx vy vz]. ring. }
  pose proof (G (V3 1 0 0)) as G1. pose proof (G (V3 0 1 0)) as G2. cbn [vx vy vz] in *. rewrite ?Ropp_0 in *. rewrite G1, G2. reflexivity.
Qed.
(** How it compares with the angle of the rotation from the one to the other. *)
Lemma axes_trace : forall a b, made a -> made b -> let t := angular_distance a b in
  inner (apply a (V3 1 0 0)) (apply b (V3 1 0 0)) + inner (apply a (V3 0 1 0)) (apply b (V3 0 1 0)) + inner (apply a (V3 0 0 1)) (apply b (V3 0 0 1)) = 1 + 2 * cos t.
Proof.
  intros a b A B. apply made_unit in A, B. destruct (distance_half a b A B) as (_ & C). cbv zeta in *. replace (angular_distance a b) with (2 * (angular_distance a b / 2)) by field. rewrite cos_2a_cos, C.
  replace (2 * Rabs (qdot a b) * Rabs (qdot a b)) with (2 * (qdot a b * qdot a b)) by (rewrite Rmult_assoc, <- Rabs_mult; rewrite (Rabs_right (qdot a b * qdot a b)); [reflexivity|nra]).
  unfold apply. rewrite !transform_sandwich by assumption. destruct a as [w x y z], b as [w' x' y' z']. unfold unit in A, B. cbn [qw qx qy qz] in A, B. unfold sandwich, inner, qdot. cbn.
  match goal with |- ?L = _ => transitivity (L - 1 + (w * w + x * x + y * y + z * z) * (w' * w' + x' * x' + y' * y' + z' * z')) end; [rewrite A, B; ring|]. ring.
Qed.
Theorem distance_against_angle : forall a b, made a -> made b -> let t := angular_distance a b in
  0 <= t <= PI /\ 2 * sqrt 2 * sin (t / 2) <= rot_distance a b <= sqrt 2 * t.
Proof.
  intros a b A B t. destruct (angular_distance_largest_angle a b (made_unit _ A) (made_unit _ B)) as (TB & TL & _). fold t in TB, TL. split; [exact TB|].
  pose proof (axes_trace a b A B) as TR. cbv zeta in TR. fold t in TR. pose proof (distance_inner a b) as D. cbv zeta in D.
  assert (U : forall e, inner e e = 1 -> let d := acos (inner (apply a e) (apply b e)) in 0 <= d <= PI /\ d <= t /\ cos d = inner (apply a e) (apply b e)).
  { intros e E. cbv zeta. destruct (unit_angle (apply a e) (apply b e)) as (X & Y); try (rewrite apply_inner; assumption). split; [exact X|]. split; [|exact Y].
    destruct (Rle_lt_dec (acos (inner (apply a e) (apply b e))) t) as [L|L]; [exact L|exfalso]. apply cos_decreasing_1 in L; try lra. rewrite Y in L. pose proof (TL e) as K. rewrite E in K. unfold apply in L. lra. }
  destruct (U _ e1) as (B1 & M1 & C1). destruct (U _ e2) as (B2 & M2 & C2). destruct (U _ e3) as (B3 & M3 & C3). rewrite <- C1, <- C2, <- C3 in TR.
  set (d1 := acos (inner (apply a (V3 1 0 0)) (apply b (V3 1 0 0)))) in *. set (d2 := acos (inner (apply a (V3 0 1 0)) (apply b (V3 0 1 0)))) in *. set (d3 := acos (inner (apply a (V3 0 0 1)) (apply b (V3 0 0 1)))) in *.
  assert (SQ : rot_distance a b * rot_distance a b = d1 * d1 + d2 * d2 + d3 * d3) by (rewrite D, length_sq; reflexivity). assert (NN : 0 <= rot_distance a b) by (rewrite D; apply length_nonneg). pose proof (sqrt_sqrt 2 ltac:(lra)) as S2. pose proof (sqrt_pos 2) as P2. split.
  - apply Rsqr_incr_0; [unfold Rsqr|apply Rmult_le_pos; [lra|apply sin_ge_0; lra]|exact NN]. rewrite SQ. replace (2 * sqrt 2 * sin (t / 2) * (2 * sqrt 2 * sin (t / 2))) with (4 * (sqrt 2 * sqrt 2) * (sin (t / 2) * sin (t / 2))) by ring. rewrite S2.
    pose proof (one_minus_cos t). pose proof (angle_lower d1 B1). pose proof (angle_lower d2 B2). pose proof (angle_lower d3 B3). lra.
  - apply Rsqr_incr_0; [unfold Rsqr|exact NN|apply Rmult_le_pos; lra]. rewrite SQ. replace (sqrt 2 * t * (sqrt 2 * t)) with ((sqrt 2 * sqrt 2) * (t * t)) by ring. rewrite S2.
    destruct (Req_dec t 0) as [Z|Z]; [assert (d1 = 0) by lra; assert (d2 = 0) by lra; assert (d3 = 0) by lra; rewrite Z, H, H0, H1; lra|].
    assert (K : 0 < 1 - cos t) by (rewrite one_minus_cos; pose proof (sin_gt_0 (t / 2) ltac:(lra) ltac:(lra)); nra).
    pose proof (angle_upper d1 t ltac:(lra) M1 ltac:(lra)). pose proof (angle_upper d2 t ltac:(lra) M2 ltac:(lra)). pose proof (angle_upper d3 t ltac:(lra) M3 ltac:(lra)).
    apply Rmult_le_reg_r with (1 - cos t); [exact K|]. assert (t * t * (1 - cos d1) + t * t * (1 - cos d2) + t * t * (1 - cos d3) = 2 * (t * t) * (1 - cos t)) by (transitivity (t * t * (3 - (cos d1 + cos d2 + cos d3))); [ring|rewrite TR; ring]). lra.
Qed.
(** Distance between positions. *)
Theorem position_distance_metric : metric (fun _ => True) eq pos_distance.
Proof.
  intros a b c _ _ _. unfold pos_distance. rewrite (vnorm_length (vsub a b)), (vnorm_length (vsub b a)), (vnorm_length (vsub a c)), (vnorm_length (vsub b c)). split; [apply length_nonneg|]. split; [unfold length; apply f_equal; unfold inner, vsub; cbn; ring|]. split.
  - split; [|intros ->; unfold length; replace (inner (vsub b b) (vsub b b)) with 0 by (unfold inner, vsub; cbn; ring); apply sqrt_0]. intro E. apply length_zero in E. unfold vsub, zero3 in E. injection E as X Y Z. apply vec_eq; lra.
  - replace (vsub a c) with (vadd (vsub a b) (vsub b c)) by (unfold vadd, vsub; cbn; apply vec_eq; cbn; ring). apply length_add.
Qed.
(** What CheckInvariants' comparison with the first lane end gives for any two ends. *)
Theorem headings_together : forall ref (ends : list quat) tol, made ref -> (forall e, In e ends -> made e /\ rot_distance ref e <= tol) ->
  forall e f, In e ends -> In f ends -> rot_distance e f <= 2 * tol /\ sqrt 2 * sin (angular_distance e f / 2) <= tol.
Proof.
  intros ref ends tol MR H e f E F. destruct (H e E) as (ME & DE). destruct (H f F) as (MF & DF). destruct (rotation_distance_metric e ref f ME MR MF) as (_ & S & _ & T). assert (D : rot_distance e f <= 2 * tol) by lra. split; [exact D|].
  destruct (distance_against_angle e f ME MF) as (_ & L & _). lra.
Qed.
(** A road heading along y (a quarter turn), and the default along x: 90 degrees apart in s and r. *)
Definition along_y : quat := from_rpy (RPY 0 0 (PI / 2)).
Lemma along_y_apply : forall v, apply along_y v = V3 (- vy v) (vx v) (vz v).
Proof.
  intro v. unfold along_y. rewrite orientation_of_rpy. cbn [roll pitch yaw]. unfold linear, times, rot_x, rot_y, rot_z, mat3. rewrite cos_0, sin_0, cos_PI2, sin_PI2. apply vec_eq; cbn [vx vy vz]; ring.
Qed.
Example orientation_example : made along_y /\ apply along_y (V3 1 2 3) = V3 (-2) 1 3 /\ apply (reverse along_y) (V3 1 2 3) = V3 2 (-1) 3 /\
  rot_distance rot_default along_y = sqrt 2 * (PI / 2) /\ pos_distance (V3 1 2 3) (V3 4 6 3) = 5.
Proof.
  assert (M : made along_y) by apply made_rpy. split; [exact M|]. split; [rewrite along_y_apply; apply vec_eq; cbn; ring|]. split; [destruct (reverse_turns along_y M) as (-> & _); rewrite along_y_apply; apply vec_eq; cbn; ring|]. split.
  - rewrite distance_inner. cbv beta zeta. rewrite !along_y_apply. cbn [vx vy vz]. unfold rot_default, apply. rewrite !identity_transform. unfold inner at 1 2 3. cbn [vx vy vz]. replace (1 * - 0 + 0 * 1 + 0 * 0) with 0 by ring. replace (0 * - (1) + 1 * 0 + 0 * 0) with 0 by ring. replace (0 * - 0 + 0 * 0 + 1 * 1) with 1 by ring.
    rewrite acos_0, acos_1. unfold length, inner. cbn [vx vy vz]. pose proof PI_RGT_0. replace (PI / 2 * (PI / 2) + PI / 2 * (PI / 2) + 0 * 0) with (2 * (PI / 2 * (PI / 2))) by ring. rewrite sqrt_mult by nra. rewrite sqrt_square by lra. reflexivity.
  - unfold pos_distance, vnorm, vsub. cbn [vx vy vz]. replace ((1 - 4) * (1 - 4) + (2 - 6) * (2 - 6) + (3 - 3) * (3 - 3)) with (5 * 5) by ring. apply sqrt_square. lra.
Qed.
(** Both bounds of [distance_against_angle] are far from 0 there, and the upper one is reached. *)
Example distance_bounds_example : angular_distance rot_default along_y = PI / 2 /\ rot_distance rot_default along_y = sqrt 2 * angular_distance rot_default along_y /\
  (forall e, In e [rot_default; along_y] -> made e /\ rot_distance rot_default e <= 3).
Proof.
  destruct orientation_example as (M & _ & _ & D & _). assert (MD : made rot_default) by constructor.
  assert (T : angular_distance rot_default along_y = PI / 2).
  { destruct (distance_against_angle rot_default along_y MD M) as (B & _). apply half_angle_unique; [exact B|pose proof PI_RGT_0; lra|]. pose proof (axes_trace rot_default along_y MD M) as TR. cbv zeta in TR. rewrite !along_y_apply in TR. unfold rot_default, apply in TR. rewrite !identity_transform in TR. unfold inner in TR. cbn [vx vy vz] in TR. rewrite cos_PI2. unfold rot_default. lra. }
  split; [exact T|]. split; [rewrite T; exact D|]. intros e [<-|[<-|[]]]; (split; [assumption|]).
  - destruct (rotation_distance_metric rot_default rot_default rot_default MD MD MD) as (_ & _ & (_ & Z) & _). rewrite Z; [lra|intro; reflexivity].
  - rewrite D. pose proof PI_4. pose proof PI_RGT_0. pose proof (sqrt_sqrt 2 ltac:(lra)). pose proof (sqrt_pos 2). assert (PI / 2 <= 2) by lra. assert (sqrt 2 <= 3 / 2) by nra. nra.
Qed.
Print Assumptions orientation_rotates.
Print Assumptions orientation_of_rpy.
Print Assumptions reverse_turns.
Print Assumptions distance_of_axes.
Print Assumptions rotation_distance_metric.
Print Assumptions distance_reversed.
Print Assumptions distance_against_angle.
Print Assumptions position_distance_metric.
Print Assumptions headings_together.
