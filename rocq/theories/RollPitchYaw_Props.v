(** Roll, pitch and yaw. *)
From Coq Require Import Reals Arith Lia Lra Psatz Bool.
From Verif Require Import Base Matrix_Model Rotation_Model Rotation_Spec Rotation_Proofs Rotation_Proofs2 Quaternion_Props.
Local Open Scope R_scope.

(** ** The matrix and the quaternion *)
(** ToMatrix() is the turn about x by roll, then about y by pitch, then about z by yaw. *)
Theorem rpy_matrix_product : forall a, entries_equal (to_matrix a) (times (rot_z (yaw a)) (times (rot_y (pitch a)) (rot_x (roll a)))).
Proof. intros [r p y]. unfold times, rot_x, rot_y, rot_z, to_matrix. cbn [roll pitch yaw]. entries; ring. Qed.
Print Assumptions rpy_matrix_product.
Theorem rpy_matrix_rotates : forall a, rotation (linear (to_matrix a)).
Proof.
  intros [r p y]. unfold to_matrix. cbn [roll pitch yaw]. pose proof (sin2_cos2 r) as Er. pose proof (sin2_cos2 p) as Ep. pose proof (sin2_cos2 y) as Ey. unfold Rsqr in *.
  assert (Fr : cos r * cos r = 1 - sin r * sin r) by lra. assert (Fp : cos p * cos p = 1 - sin p * sin p) by lra. assert (Fy : cos y * cos y = 1 - sin y * sin y) by lra.
  set (cr := cos r) in *. set (sr := sin r) in *. set (cp := cos p) in *. set (sp := sin p) in *. set (cy := cos y) in *. set (sy := sin y) in *.
  split.
  - intros [a1 a2 a3] [b1 b2 b3]. unfold inner, linear, mat3. cbn. ring [Fr Fp Fy].
  - intros a b c.
    set (m00 := cy * cp). set (m01 := cy * sp * sr - sy * cr). set (m02 := cy * sp * cr + sy * sr). set (m10 := sy * cp). set (m11 := sy * sp * sr + cy * cr). set (m12 := sy * sp * cr - cy * sr).
    set (m20 := - sp). set (m21 := cp * sr). set (m22 := cp * cr).
    assert (D : m00 * (m11 * m22 - m12 * m21) - m01 * (m10 * m22 - m12 * m20) + m02 * (m10 * m21 - m11 * m20) = 1) by (unfold m00, m01, m02, m10, m11, m12, m20, m21, m22; ring [Fr Fp Fy]).
    transitivity ((m00 * (m11 * m22 - m12 * m21) - m01 * (m10 * m22 - m12 * m20) + m02 * (m10 * m21 - m11 * m20)) * volume a b c); [|rewrite D; ring]. unfold volume, linear, mat3. cbn. ring.
Qed.
Print Assumptions rpy_matrix_rotates.
(** ToQuaternion() is a unit quaternion of the same rotation. *)
Theorem rpy_quaternion : forall a, unit (to_quaternion a) /\ entries_equal (to_rotation_matrix (to_quaternion a)) (to_matrix a).
Proof.
  intros [r p y]. assert (Hc : forall x, cos x = 1 - 2 * (sin (x / 2) * sin (x / 2))) by (intro x; replace (cos x) with (cos (2 * (x / 2))) by (f_equal; field); rewrite cos_2a_sin; ring).
  assert (Hs : forall x, sin x = 2 * sin (x / 2) * cos (x / 2)) by (intro x; replace (sin x) with (sin (2 * (x / 2))) by (f_equal; field); apply sin_2a).
  unfold to_matrix. cbn [roll pitch yaw]. rewrite (Hc r), (Hc p), (Hc y), (Hs r), (Hs p), (Hs y).
  pose proof (sin2_cos2 (r / 2)) as Er. pose proof (sin2_cos2 (p / 2)) as Ep. pose proof (sin2_cos2 (y / 2)) as Ey. unfold Rsqr in *.
  assert (Fr : cos (r / 2) * cos (r / 2) = 1 - sin (r / 2) * sin (r / 2)) by lra. assert (Fp : cos (p / 2) * cos (p / 2) = 1 - sin (p / 2) * sin (p / 2)) by lra. assert (Fy : cos (y / 2) * cos (y / 2) = 1 - sin (y / 2) * sin (y / 2)) by lra.
  set (c0 := cos (r / 2)) in *. set (s0 := sin (r / 2)) in *. set (c1 := cos (p / 2)) in *. set (s1 := sin (p / 2)) in *. set (c2 := cos (y / 2)) in *. set (s2 := sin (y / 2)) in *.
  assert (U : unit (to_quaternion (RPY r p y))) by (unfold unit, to_quaternion; cbn; fold c0 s0 c1 s1 c2 s2; ring [Fr Fp Fy]).
  split; [exact U|]. unfold to_rotation_matrix. rewrite normalized_unit_id by exact U. unfold to_quaternion. cbn [roll pitch yaw qw qx qy qz]. fold c0 s0 c1 s1 c2 s2. entries; ring [Fr Fp Fy].
Qed.
Print Assumptions rpy_quaternion.

(** ** Angles from a quaternion *)
Lemma wrap_same : forall a, cos (wrap a) = cos a /\ sin (wrap a) = sin a.
Proof.
  assert (M : forall b, cos (b - 2 * PI) = cos b /\ sin (b - 2 * PI) = sin b) by (intro b; pose proof (cos_period (b - 2 * PI) 1) as X; pose proof (sin_period (b - 2 * PI) 1) as Y; replace (b - 2 * PI + 2 * INR 1 * PI) with b in * by (cbn; ring); split; congruence).
  assert (P : forall b, cos (b + 2 * PI) = cos b /\ sin (b + 2 * PI) = sin b) by (intro b; pose proof (cos_period b 1) as X; pose proof (sin_period b 1) as Y; replace (b + 2 * INR 1 * PI) with (b + 2 * PI) in * by (cbn; ring); split; congruence).
  intro a. unfold wrap. destruct (Rlt_dec PI a); [destruct (M a) as (<- & <-)|]; match goal with |- context [Rlt_dec ?x _] => destruct (Rlt_dec x (- PI)) end; auto.
Qed.
Lemma wrap_bound : forall a, -2 * PI < a <= 2 * PI -> - PI <= wrap a <= PI.
Proof. intros a B. pose proof PI_RGT_0. unfold wrap. destruct (Rlt_dec PI a); match goal with |- context [Rlt_dec ?x _] => destruct (Rlt_dec x (- PI)) end; lra. Qed.
Lemma dep_pos : 0 < depsilon < / 1000.
Proof. unfold depsilon. cbn. lra. Qed.

(** The entries in the variables of the code. *)
Lemma matrix_ab : forall q, unit q -> let ya := qx q + qz q in let xa := qw q - qy q in let yb := qz q - qx q in let xb := qw q + qy q in
  entries_equal (to_rotation_matrix q)
    (mat3 (xa * xb - ya * yb) (- (xa * ya + xb * yb)) ((ya * ya - yb * yb + xb * xb - xa * xa) / 2)
          (xa * yb + ya * xb) ((xa * xa + xb * xb - ya * ya - yb * yb) / 2) (xb * yb - xa * ya)
          ((xa * xa + ya * ya - xb * xb - yb * yb) / 2) (ya * xb - xa * yb) (xa * xb + ya * yb)) /\
  xa * xa + ya * ya + (xb * xb + yb * yb) = 2.
Proof.
  intros q U. cbv zeta. split; [|unfold unit in U; lra]. unfold to_rotation_matrix. rewrite normalized_unit_id by exact U. destruct q as [w x y z]. unfold unit in U. cbn in U.
  cbn [qw qx qy qz]. entries; lra.
Qed.
(** The angles the code computes are those of the entries with A and B replaced by their polar
    forms. *)
Lemma set_polar : forall q0, let q := qnormalized q0 in let ya := qx q + qz q in let xa := qw q - qy q in let yb := qz q - qx q in let xb := qw q + qy q in
  let ra := sqrt (xa * xa + ya * ya) in let rb := sqrt (xb * xb + yb * yb) in
  let za := if nearly_zero ya xa then 0 else atan2 ya xa in let zb := if nearly_zero yb xb then 0 else atan2 yb xb in
  let a := set_from_quaternion q0 in
  sin (pitch a) = (xb * xb + yb * yb - xa * xa - ya * ya) / 2 /\ cos (pitch a) = ra * rb /\ cos (yaw a) = cos (za + zb) /\ sin (yaw a) = sin (za + zb) /\
  cos (roll a) = cos (za - zb) /\ sin (roll a) = sin (za - zb).
Proof.
  intro q0. cbv zeta. unfold set_from_quaternion. cbn [roll pitch yaw]. rewrite matrix_normalized. set (q := qnormalized q0). assert (U : unit q) by apply normalized_unit.
  destruct (matrix_ab q U) as (E & S2). cbv zeta in *. rewrite !E by lia. clearbody q. cbn [mat3].
  set (ya := qx q + qz q) in *. set (xa := qw q - qy q) in *. set (yb := qz q - qx q) in *. set (xb := qw q + qy q) in *. clear E. clearbody ya xa yb xb.
  rewrite !(proj1 (wrap_same _)), !(proj2 (wrap_same _)). set (A := xa * xa + ya * ya) in *. set (B := xb * xb + yb * yb) in *.
  assert (PA : 0 <= A) by (unfold A; nra). assert (PB : 0 <= B) by (unfold B; nra).
  match goal with |- context [sqrt (?t / 2)] => replace (t / 2) with (A * B) by (transitivity ((2 * (A * B)) / 2); [field|f_equal; unfold A, B; ring]) end.
  rewrite sqrt_mult by assumption. set (ra := sqrt A). set (rb := sqrt B). assert (EA : ra * ra = A) by (apply sqrt_sqrt; exact PA). assert (EB : rb * rb = B) by (apply sqrt_sqrt; exact PB).
  assert (N1 : (ra * rb) * (ra * rb) + - ((A - xb * xb - yb * yb) / 2) * - ((A - xb * xb - yb * yb) / 2) = 1).
  { replace (A - xb * xb - yb * yb) with (A - B) by (unfold B; ring). replace (ra * rb * (ra * rb)) with (ra * ra * (rb * rb)) by ring. rewrite EA, EB. replace B with (2 - A) by lra. field. }
  destruct (atan2_cos_sin (- ((A - xb * xb - yb * yb) / 2)) (ra * rb)) as (C & S).
  { destruct (Req_dec (ra * rb) 0) as [Z|Z]; [right|left; exact Z]. intro Z'. rewrite Z, Z' in N1. lra. }
  unfold A in N1, C, S. fold A in N1, C, S. rewrite N1, sqrt_1 in C, S. rewrite C, S. split; [unfold A, B; field|]. split; [field|]. auto.
Qed.
(** So the matrix of those angles is given by the polar forms. *)
Lemma to_matrix_polar : forall a ra rb za zb, ra * ra + rb * rb = 2 -> sin (pitch a) = (rb * rb - ra * ra) / 2 -> cos (pitch a) = ra * rb ->
  cos (yaw a) = cos (za + zb) -> sin (yaw a) = sin (za + zb) -> cos (roll a) = cos (za - zb) -> sin (roll a) = sin (za - zb) ->
  let xa := ra * cos za in let ya := ra * sin za in let xb := rb * cos zb in let yb := rb * sin zb in
  entries_equal (to_matrix a)
    (mat3 (xa * xb - ya * yb) (- (xa * ya + xb * yb)) ((ya * ya - yb * yb + xb * xb - xa * xa) / 2)
          (xa * yb + ya * xb) ((xa * xa + xb * xb - ya * ya - yb * yb) / 2) (xb * yb - xa * ya)
          ((xa * xa + ya * ya - xb * xb - yb * yb) / 2) (ya * xb - xa * yb) (xa * xb + ya * yb)).
Proof.
  intros a ra rb za zb S2 Sp Cp Cy Sy Cr Sr. cbv zeta. unfold to_matrix. rewrite Sp, Cp, Cy, Sy, Cr, Sr. rewrite cos_plus, sin_plus, cos_minus, sin_minus.
  pose proof (sin2_cos2 za) as Ea. pose proof (sin2_cos2 zb) as Eb. unfold Rsqr in *.
  assert (Fa : cos za * cos za = 1 - sin za * sin za) by lra. assert (Fb : cos zb * cos zb = 1 - sin zb * sin zb) by lra. assert (Fr : rb * rb = 2 - ra * ra) by lra.
  set (ca := cos za) in *. set (sa := sin za) in *. set (cb := cos zb) in *. set (sb := sin zb) in *.
  entries; unfold Rdiv; try ring; field_simplify; replace (rb ^ 2) with (rb * rb) by ring; try replace (ca ^ 2) with (ca * ca) by ring; try replace (cb ^ 2) with (cb * cb) by ring; rewrite ?Fr, ?Fa, ?Fb; try field; ring [Fa Fb Fr].
Qed.
Lemma polar_exact : forall y x, (x = 0 /\ y = 0) \/ nearly_zero y x = false -> let z := if nearly_zero y x then 0 else atan2 y x in
  let r := sqrt (x * x + y * y) in x = r * cos z /\ y = r * sin z.
Proof.
  intros y x H. cbv zeta. destruct H as [(-> & ->)|H].
  - replace (0 * 0 + 0 * 0) with 0 by ring. rewrite sqrt_0. split; ring.
  - rewrite H. assert (N : x <> 0 \/ y <> 0).
    { destruct (Req_dec x 0) as [->|]; [|left; assumption]. right. intros ->. revert H. unfold nearly_zero. rewrite Rabs_R0. pose proof dep_pos. destruct (Rle_dec 0 depsilon); [discriminate|lra]. }
    destruct (atan2_cos_sin y x N) as (C & S). pose proof (sqrt_lt_R0 _ (sqrt_sum_pos x y N)). rewrite C, S. split; field; lra.
Qed.
Lemma near_small : forall y x, nearly_zero y x = true -> Rabs y <= depsilon /\ Rabs x <= depsilon.
Proof. intros y x H. unfold nearly_zero in H. destruct (Rle_dec (Rabs y) depsilon); [|discriminate]. destruct (Rle_dec (Rabs x) depsilon); [auto|discriminate]. Qed.
Lemma far_false : forall y x, 2 * depsilon * depsilon < x * x + y * y -> nearly_zero y x = false.
Proof.
  intros y x L. destruct (nearly_zero y x) eqn:E; [|reflexivity]. exfalso. apply near_small in E. destruct E as (Y & X). pose proof dep_pos.
  assert (forall t, Rabs t <= depsilon -> t * t <= depsilon * depsilon) as Q.
  { intros t T. replace (t * t) with (Rabs t * Rabs t) by (rewrite <- Rabs_mult; apply Rabs_right; nra). pose proof (Rabs_pos t). nra. }
  pose proof (Q y Y). pose proof (Q x X). lra.
Qed.
Lemma ss_nonneg : forall x y, 0 <= x * x + y * y.
Proof. intros x y. nra. Qed.
Lemma set_matrix : forall q0, let q := qnormalized q0 in let ya := qx q + qz q in let xa := qw q - qy q in let yb := qz q - qx q in let xb := qw q + qy q in
  let ra := sqrt (xa * xa + ya * ya) in let rb := sqrt (xb * xb + yb * yb) in
  let za := if nearly_zero ya xa then 0 else atan2 ya xa in let zb := if nearly_zero yb xb then 0 else atan2 yb xb in
  let xa := ra * cos za in let ya := ra * sin za in let xb := rb * cos zb in let yb := rb * sin zb in
  entries_equal (to_matrix (set_from_quaternion q0))
    (mat3 (xa * xb - ya * yb) (- (xa * ya + xb * yb)) ((ya * ya - yb * yb + xb * xb - xa * xa) / 2)
          (xa * yb + ya * xb) ((xa * xa + xb * xb - ya * ya - yb * yb) / 2) (xb * yb - xa * ya)
          ((xa * xa + ya * ya - xb * xb - yb * yb) / 2) (ya * xb - xa * yb) (xa * xb + ya * yb)).
Proof.
  intro q0. pose proof (set_polar q0) as P. pose proof (matrix_ab (qnormalized q0) (normalized_unit q0)) as (_ & S2). cbv zeta in *. destruct P as (Sp & Cp & Cy & Sy & Cr & Sr).
  apply to_matrix_polar; try assumption.
  - rewrite !sqrt_sqrt by apply ss_nonneg. exact S2.
  - rewrite Sp, !sqrt_sqrt by apply ss_nonneg. field.
Qed.
(** The angles are in the documented ranges. *)
Theorem rpy_ranges : forall q, let a := set_from_quaternion q in - PI <= roll a <= PI /\ - (PI / 2) <= pitch a <= PI / 2 /\ - PI <= yaw a <= PI.
Proof.
  intro q. cbv zeta. unfold set_from_quaternion. cbn [roll pitch yaw]. pose proof PI_RGT_0.
  assert (B : forall y x, - PI < (if nearly_zero y x then 0 else atan2 y x) <= PI) by (intros y x; destruct (nearly_zero y x); [lra|apply atan2_bound]).
  split; [|split]; [apply wrap_bound| |apply wrap_bound].
  - match goal with |- _ < ?z - ?w <= _ => pose proof (B (qx (qnormalized q) + qz (qnormalized q)) (qw (qnormalized q) - qy (qnormalized q))); pose proof (B (qz (qnormalized q) - qx (qnormalized q)) (qw (qnormalized q) + qy (qnormalized q))) end. lra.
  - apply atan2_right, sqrt_pos.
  - match goal with |- _ < ?z + ?w <= _ => pose proof (B (qx (qnormalized q) + qz (qnormalized q)) (qw (qnormalized q) - qy (qnormalized q))); pose proof (B (qz (qnormalized q) - qx (qnormalized q)) (qw (qnormalized q) + qy (qnormalized q))) end. lra.
Qed.
Print Assumptions rpy_ranges.
Lemma Rabs_def2_le : forall x a, Rabs x <= a -> - a <= x <= a.
Proof. intros x a H. unfold Rabs in H. destruct (Rcase_abs x); lra. Qed.
(** They give back the rotation, except next to the poles ... *)
Theorem rpy_from_quaternion_exact : forall q, (let s := Rabs (to_rotation_matrix q 2%nat 0%nat) in s = 1 \/ 2 * depsilon * depsilon < 1 - s) ->
  entries_equal (to_matrix (set_from_quaternion q)) (to_rotation_matrix q).
Proof.
  intros q0 H. pose proof (set_matrix q0) as M. pose proof (matrix_ab (qnormalized q0) (normalized_unit q0)) as (E & S2). rewrite (matrix_normalized q0) in H |- *. cbv zeta in *. set (q := qnormalized q0) in *.
  rewrite E in H by lia. cbn [mat3] in H. clearbody q.
  set (ya := qx q + qz q) in *. set (xa := qw q - qy q) in *. set (yb := qz q - qx q) in *. set (xb := qw q + qy q) in *. clearbody ya xa yb xb.
  set (A := xa * xa + ya * ya) in *. set (B := xb * xb + yb * yb) in *. replace ((A - xb * xb - yb * yb) / 2) with (A - 1) in H by (unfold A, B in *; lra).
  assert (PA : 0 <= A) by (unfold A; nra). assert (PB : 0 <= B) by (unfold B; nra). pose proof dep_pos as DP.
  assert (Z : forall x y, x * x + y * y = 0 -> x = 0 /\ y = 0) by (intros x y Q; split; apply Rsqr_0_uniq; unfold Rsqr; nra).
  assert (HA : A = 0 \/ 2 * depsilon * depsilon < A) by (destruct H as [H|H]; unfold Rabs in H; destruct (Rcase_abs (A - 1)); [left; lra|right; nra|right; lra|right; nra]).
  assert (HB : B = 0 \/ 2 * depsilon * depsilon < B) by (destruct H as [H|H]; unfold Rabs in H; destruct (Rcase_abs (A - 1)); [right; nra|left; lra|right; nra|right; lra]).
  destruct (polar_exact ya xa) as (XA & YA); [destruct HA as [HA|HA]; [left; apply Z; exact HA|right; apply far_false; exact HA]|].
  destruct (polar_exact yb xb) as (XB & YB); [destruct HB as [HB|HB]; [left; apply Z; exact HB|right; apply far_false; exact HB]|].
  cbv zeta in *. fold A in XA, YA. fold B in XB, YB. rewrite <- XA, <- YA, <- XB, <- YB in M. intros i j Li Lj. rewrite M, E by assumption. unfold A. reflexivity.
Qed.
Print Assumptions rpy_from_quaternion_exact.
(** ... and there up to 2^-49 in every entry. *)
Theorem rpy_from_quaternion_close : forall q i j, (i < 3)%nat -> (j < 3)%nat -> Rabs (to_matrix (set_from_quaternion q) i j - to_rotation_matrix q i j) <= 8 * depsilon.
Proof.
  intros q0 i j Li Lj. pose proof (set_matrix q0) as M. pose proof (matrix_ab (qnormalized q0) (normalized_unit q0)) as (E & S2). rewrite (matrix_normalized q0). cbv zeta in *. set (q := qnormalized q0) in *.
  rewrite M, E by assumption. clear M E. clearbody q. set (ya := qx q + qz q) in *. set (xa := qw q - qy q) in *. set (yb := qz q - qx q) in *. set (xb := qw q + qy q) in *. clearbody ya xa yb xb. clear q.
  pose proof dep_pos as DP. set (e := depsilon) in *.
  (* the polar form of A or B is exact unless nearly zero *)
  assert (N : forall x y, (let z := if nearly_zero y x then 0 else atan2 y x in let r := sqrt (x * x + y * y) in x = r * cos z /\ y = r * sin z) \/
     (let z := if nearly_zero y x then 0 else atan2 y x in let r := sqrt (x * x + y * y) in Rabs x <= e /\ Rabs y <= e /\ Rabs (r * cos z) <= 2 * e /\ r * sin z = 0)).
  { intros x y. destruct (nearly_zero y x) eqn:NZ; [right|left; pose proof (polar_exact y x (or_intror NZ)) as P; rewrite NZ in P; exact P].
    cbv zeta. destruct (near_small y x NZ) as (Y & X). fold e in X, Y. repeat split; try assumption; [|rewrite sin_0; ring]. rewrite cos_0, Rmult_1_r, Rabs_right by (apply Rle_ge, sqrt_pos).
    rewrite <- (sqrt_Rsqr (2 * e)) by lra. apply sqrt_le_1_alt. unfold Rsqr. assert (forall t, Rabs t <= e -> t * t <= e * e) as Q.
    { intros t T. replace (t * t) with (Rabs t * Rabs t) by (rewrite <- Rabs_mult; apply Rabs_right; nra). pose proof (Rabs_pos t). nra. }
    pose proof (Q y Y). pose proof (Q x X). nra. }
  destruct (N xa ya) as [(XA & YA)|(XA & YA & CA & SA)]; destruct (N xb yb) as [(XB & YB)|(XB & YB & CB & SB)]; cbv zeta in *; clear N.
  - rewrite <- XA, <- YA, <- XB, <- YB. rewrite Rminus_eq_0 || (unfold Rminus; rewrite Rplus_opp_r). rewrite Rabs_R0. lra.
  - rewrite <- XA, <- YA. rewrite SB. match goal with H : Rabs ?t <= 2 * e |- _ => set (c := t) in * end.
    assert (TA : -3/2 <= xa <= 3/2 /\ -3/2 <= ya <= 3/2) by (clear - S2; repeat split; nra). apply Rabs_def2_le in XB. apply Rabs_def2_le in YB. apply Rabs_def2_le in CB.
    apply Rabs_le. destruct i as [|[|[|i]]]; destruct j as [|[|[|j]]]; try lia; cbn [mat3]; clear - TA XB YB CB DP S2; clearbody c; nra.
  - rewrite <- XB, <- YB. rewrite SA. match goal with H : Rabs ?t <= 2 * e |- _ => set (c := t) in * end.
    assert (TB : -3/2 <= xb <= 3/2 /\ -3/2 <= yb <= 3/2) by (clear - S2; repeat split; nra). apply Rabs_def2_le in XA. apply Rabs_def2_le in YA. apply Rabs_def2_le in CA.
    apply Rabs_le. destruct i as [|[|[|i]]]; destruct j as [|[|[|j]]]; try lia; cbn [mat3]; clear - TB XA YA CA DP S2; clearbody c; nra.
  - exfalso. apply Rabs_def2_le in XA. apply Rabs_def2_le in YA. apply Rabs_def2_le in XB. apply Rabs_def2_le in YB. nra.
Qed.
Print Assumptions rpy_from_quaternion_close.
(** Angles away from the poles survive the round trip. *)
Theorem rpy_round_trip : forall a, - PI < roll a < PI -> - (PI / 2) < pitch a < PI / 2 -> - PI < yaw a < PI -> 2 * depsilon * depsilon < 1 - Rabs (sin (pitch a)) ->
  set_from_quaternion (to_quaternion a) = a.
Proof.
  intros a Br Bp By S. destruct (rpy_quaternion a) as (_ & E). pose proof (rpy_ranges (to_quaternion a)) as (Rr & Rp & Ry). cbv zeta in *.
  assert (M : entries_equal (to_matrix (set_from_quaternion (to_quaternion a))) (to_matrix a)).
  { intros i j Li Lj. rewrite rpy_from_quaternion_exact; [apply E; assumption| |assumption|assumption]. right. rewrite E by lia. cbn. rewrite Rabs_Ropp. exact S. }
  set (b := set_from_quaternion (to_quaternion a)) in *. clearbody b. clear E S. pose proof PI_RGT_0 as PP.
  pose proof (M 2%nat 0%nat ltac:(lia) ltac:(lia)) as M20. pose proof (M 2%nat 1%nat ltac:(lia) ltac:(lia)) as M21. pose proof (M 2%nat 2%nat ltac:(lia) ltac:(lia)) as M22.
  pose proof (M 0%nat 0%nat ltac:(lia) ltac:(lia)) as M00. pose proof (M 1%nat 0%nat ltac:(lia) ltac:(lia)) as M10. unfold to_matrix in *. cbn [mat3] in *.
  assert (P : pitch b = pitch a). { assert (Sp : sin (pitch b) = sin (pitch a)) by lra. rewrite <- (asin_sin (pitch b)) by lra. rewrite Sp. apply asin_sin. lra. }
  rewrite P in *. assert (C : 0 < cos (pitch a)) by (apply cos_gt_0; lra).
  assert (U : forall x y, - PI <= x <= PI -> - PI < y < PI -> cos x = cos y -> sin x = sin y -> x = y).
  { intros x y Bx Byy Cx Sx. destruct (Req_dec x (- PI)) as [->|N]; [|apply angle_unique; try lra; assumption].
    exfalso. assert (y = PI); [|lra]. apply angle_unique; try lra; [rewrite <- Cx, cos_neg|rewrite <- Sx, sin_neg, sin_PI; lra]; reflexivity. }
  destruct a as [r p y], b as [r' p' y']. cbn [roll pitch yaw] in *. f_equal; [apply U; try lra; apply (Rmult_eq_reg_l (cos p)); lra|exact P|apply U; try lra; apply (Rmult_eq_reg_l (cos p)); lra].
Qed.
Print Assumptions rpy_round_trip.

(** ** Derivatives *)
Definition D := derivable_pt_lim.
Lemma D_sin : forall f t a, D f t a -> D (fun u => sin (f u)) t (cos (f t) * a).
Proof. intros f t a H. apply (derivable_pt_lim_comp f sin t a (cos (f t))); [exact H|apply derivable_pt_lim_sin]. Qed.
Lemma D_cos : forall f t a, D f t a -> D (fun u => cos (f u)) t (- sin (f t) * a).
Proof. intros f t a H. apply (derivable_pt_lim_comp f cos t a (- sin (f t))); [exact H|apply derivable_pt_lim_cos]. Qed.
Lemma D_mul : forall f g t a b, D f t a -> D g t b -> D (fun u => f u * g u) t (a * g t + f t * b).
Proof. intros f g t a b F G. apply (derivable_pt_lim_mult f g); assumption. Qed.
Lemma D_add : forall f g t a b, D f t a -> D g t b -> D (fun u => f u + g u) t (a + b).
Proof. intros f g t a b F G. apply (derivable_pt_lim_plus f g); assumption. Qed.
Lemma D_sub : forall f g t a b, D f t a -> D g t b -> D (fun u => f u - g u) t (a - b).
Proof. intros f g t a b F G. apply (derivable_pt_lim_minus f g); assumption. Qed.
Lemma D_opp : forall f t a, D f t a -> D (fun u => - f u) t (- a).
Proof. intros f t a F. apply (derivable_pt_lim_opp f); assumption. Qed.
Lemma D_eq : forall f t a b, D f t a -> a = b -> D f t b.
Proof. intros f t a b H <-. exact H. Qed.
(** CalcRotationMatrixDt() is the time derivative of ToMatrix() along any motion. *)
Theorem rpy_matrix_derivative : forall r p y t dr dp dy, D r t dr -> D p t dp -> D y t dy -> forall i j, (i < 3)%nat -> (j < 3)%nat ->
  D (fun u => to_matrix (RPY (r u) (p u) (y u)) i j) t (matrix_dt (RPY (r t) (p t) (y t)) (V3 dr dp dy) i j).
Proof.
  intros r p y t dr dp dy Hr Hp Hy. unfold matrix_dt, madd, scale, matrix_dr, matrix_dp, matrix_dy, to_matrix. cbn [roll pitch yaw vx vy vz].
  intros i j Li Lj. destruct i as [|[|[|i]]]; destruct j as [|[|[|j]]]; try lia; cbn [mat3];
  (eapply D_eq; [repeat first [eapply D_add|eapply D_sub|eapply D_opp|eapply D_mul|eapply D_sin|eapply D_cos|eassumption]|cbv beta; ring]).
Qed.
Print Assumptions rpy_matrix_derivative.

Example rpy_ex : to_matrix (RPY 0 0 (PI / 2)) 0%nat 1%nat = -1 /\ to_matrix (RPY 0 0 (PI / 2)) 1%nat 0%nat = 1.
Proof. unfold to_matrix. cbn. rewrite cos_0, sin_0, cos_PI2, sin_PI2. lra. Qed.
Example rpy_round_ex : set_from_quaternion (to_quaternion (RPY 1 0 (-1))) = RPY 1 0 (-1).
Proof. pose proof PI_RGT_0. pose proof PI2_1. pose proof dep_pos. apply rpy_round_trip; cbn [roll pitch yaw]; try lra. rewrite sin_0, Rabs_R0. nra. Qed.
Example rpy_derivative_ex : D (fun u => to_matrix (RPY (u * 1) 0 0) 2%nat 1%nat) 0 1.
Proof.
  assert (I : D (fun u => u * 1) 0 1) by (eapply D_eq; [apply D_mul; [apply derivable_pt_lim_id|apply derivable_pt_lim_const]|cbn; ring]). assert (K : D (fun _ => 0) 0 0) by apply derivable_pt_lim_const.
  eapply D_eq; [exact (rpy_matrix_derivative (fun u => u * 1) (fun _ => 0) (fun _ => 0) 0 1 0 0 I K K 2%nat 1%nat ltac:(lia) ltac:(lia))|].
  unfold matrix_dt, madd, scale, matrix_dr, matrix_dp, matrix_dy. cbn. replace (0 * 1) with 0 by ring. rewrite cos_0, sin_0. ring.
Qed.
