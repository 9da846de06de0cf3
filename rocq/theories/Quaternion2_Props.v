(** Quaternions from angles and vectors; interpolation and distance. *)
From Coq Require Import Reals Arith Lia Lra Psatz Bool.
From Verif Require Import Base Matrix_Model Rotation_Model Rotation_Spec Rotation_Proofs Rotation_Proofs2 Quaternion_Props.
Local Open Scope R_scope.

(** ** Angle and axis *)
Definition direction (a : vec3) : vec3 := V3 (vx a / length a) (vy a / length a) (vz a / length a).
Theorem angle_axis_turns : forall angle axis v, qtol <= length axis ->
  unit (quat_angle_axis angle axis) /\ transform_vector (quat_angle_axis angle axis) v = turn angle (direction axis) v.
Proof.
  intros angle [a b c] [x y z] L. pose proof qtol_pos as TP. unfold quat_angle_axis. rewrite vnorm_length. set (n := length (V3 a b c)) in *.
  destruct (Rlt_dec n qtol) as [|_]; [lra|]. assert (N : n <> 0) by lra. assert (EN : n * n = a * a + b * b + c * c) by (unfold n; rewrite length_sq; reflexivity).
  set (h := angle * / 2). pose proof (sin2_cos2 h) as SC. unfold Rsqr in SC. cbn [vx vy vz].
  assert (Nd : (a / n) * (a / n) + (b / n) * (b / n) + (c / n) * (c / n) = 1) by (transitivity ((a * a + b * b + c * c) / (n * n)); [field; exact N|rewrite <- EN; field; exact N]).
  set (s := sin h) in *. set (k := cos h) in *. set (u1 := a / n) in *. set (u2 := b / n) in *. set (u3 := c / n) in *.
  assert (E : Qn k (a * (s / n)) (b * (s / n)) (c * (s / n)) = Qn k (s * u1) (s * u2) (s * u3)) by (apply quat_eq; unfold u1, u2, u3; cbn; try field; exact N || reflexivity).
  rewrite E. assert (U : unit (Qn k (s * u1) (s * u2) (s * u3))).
  { unfold unit. cbn. transitivity (k * k + s * s * (u1 * u1 + u2 * u2 + u3 * u3)); [ring|rewrite Nd; lra]. }
  rewrite normalized_unit_id by exact U. split; [exact U|]. assert (Ec : cos angle = 1 - 2 * (s * s)).
  { replace angle with (2 * h) by (unfold h; field). rewrite cos_2a_sin. fold s. ring. }
  assert (Es : sin angle = 2 * s * k) by (replace angle with (2 * h) by (unfold h; field); rewrite sin_2a; fold s k; ring).
  rewrite transform_sandwich by exact U. unfold turn, direction, inner. cbn [vx vy vz]. change (length (V3 a b c)) with n. fold u1 u2 u3. rewrite Ec, Es.
  assert (Ek : k * k = 1 - s * s) by lra. assert (Eu : u1 * u1 = 1 - u2 * u2 - u3 * u3) by lra.
  apply vec_eq; unfold sandwich; cbn [qw qx qy qz vx vy vz]; ring [Ek Eu].
Qed.
Print Assumptions angle_axis_turns.
(** A tiny axis gives no rotation. *)
Theorem angle_axis_tiny : forall angle axis v, length axis < qtol -> transform_vector (quat_angle_axis angle axis) v = v.
Proof.
  intros angle axis v L. unfold quat_angle_axis. rewrite vnorm_length. destruct (Rlt_dec (length axis) qtol); [|contradiction].
  rewrite normalized_unit_id by (unfold unit, qidentity; cbn; ring). apply identity_transform.
Qed.
Print Assumptions angle_axis_tiny.

(** ** From one vector to another *)
Definition cosine (a b : vec3) : R := inner a b / (length a * length b).
Lemma length_pos : forall a, a <> zero3 -> 0 < length a.
Proof. intros a N. destruct (Rle_lt_or_eq_dec 0 (length a) (length_nonneg a)) as [L|E]; [exact L|]. exfalso. apply N, length_zero. symmetry. exact E. Qed.
Lemma cosine_bound : forall a b, a <> zero3 -> b <> zero3 -> -1 <= cosine a b <= 1.
Proof.
  intros a b A B. pose proof (length_pos a A) as PA. pose proof (length_pos b B) as PB. pose proof (cauchy_schwarz a b) as CS. rewrite <- (length_sq a), <- (length_sq b) in CS.
  unfold cosine. set (k := length a * length b). assert (PK : 0 < k) by (apply Rmult_lt_0_compat; assumption). set (d := inner a b) in *.
  assert (D : d * d <= k * k) by (unfold k; lra). assert (-k <= d <= k) by (split; nra). split; apply (Rmult_le_reg_r k); try exact PK; replace (d / k * k) with d by (field; lra); lra.
Qed.
Lemma k_product : forall a b, sqrt (vnorm a * vnorm a * vnorm b * vnorm b) = length a * length b.
Proof.
  intros a b. transitivity (sqrt (Rsqr (length a * length b))); [f_equal; unfold Rsqr; change (vnorm a) with (length a); change (vnorm b) with (length b); ring|]. apply sqrt_Rsqr.
  apply Rmult_le_pos; apply length_nonneg.
Qed.
Lemma from_two_test : forall a b, a <> zero3 -> b <> zero3 ->
  from_two_vectors a b =
  if Rlt_dec (1 + cosine a b) qtol then
    match vnormalized (vcross a (other_axis a)) with None => None | Some u => Some (Qn 0 (vx u) (vy u) (vz u)) end
  else let u := vcross a b in Some (qnormalized (Qn (inner a b + length a * length b) (vx u) (vy u) (vz u))).
Proof.
  intros a b A B. unfold from_two_vectors. rewrite k_product, vdot_inner. pose proof (length_pos a A) as PA. pose proof (length_pos b B) as PB.
  assert (PK : 0 < length a * length b) by (apply Rmult_lt_0_compat; assumption). destruct (Req_EM_T (length a * length b) 0) as [Z|_]; [lra|].
  fold (cosine a b). pose proof (cosine_bound a b A B) as CB. rewrite (Rabs_right (cosine a b + 1)) by lra. rewrite (Rplus_comm (cosine a b)).
  destruct (Rlt_dec (1 + cosine a b) qtol); reflexivity.
Qed.
(** Whenever the vectors are not opposite (up to the tolerance) and not tiny, the first is turned
    into the direction of the second. *)
Theorem two_vectors_partial : forall a b, a <> zero3 -> b <> zero3 ->
  qtol <= 1 + cosine a b -> qtol * qtol <= 2 * (length a * length b) * (length a * length b) * (1 + cosine a b) ->
  exists q, from_two_vectors a b = Some q /\ unit q /\ same_direction b (transform_vector q a).
Proof.
  intros a b A B L1 L2. pose proof qtol_pos as TP. rewrite from_two_test by assumption. destruct (Rlt_dec (1 + cosine a b) qtol) as [|_]; [lra|]. eexists. split; [reflexivity|]. split; [apply normalized_unit|].
  pose proof (length_pos a A) as PA. pose proof (length_pos b B) as PB. set (k := length a * length b) in *. assert (PK : 0 < k) by (apply Rmult_lt_0_compat; assumption).
  set (d := inner a b) in *. assert (Ed : k * (1 + cosine a b) = k + d) by (unfold cosine; fold k d; field; lra).
  assert (Pkd : 0 < k + d) by (rewrite <- Ed; apply Rmult_lt_0_compat; lra).
  set (u := vcross a b). set (q0 := Qn (d + k) (vx u) (vy u) (vz u)).
  assert (EK : k * k = inner a a * inner b b) by (unfold k; rewrite <- (length_sq a), <- (length_sq b); ring).
  assert (Eu : vx u * vx u + vy u * vy u + vz u * vz u = k * k - d * d) by (rewrite EK; unfold u, d; pose proof (cross_sq a b) as X; unfold inner at 1 in X; exact X).
  assert (C1 : vy u * vz a - vz u * vy a = inner a a * vx b - d * vx a) by (unfold u, vcross, d, inner; cbn; ring).
  assert (C2 : vz u * vx a - vx u * vz a = inner a a * vy b - d * vy a) by (unfold u, vcross, d, inner; cbn; ring).
  assert (C3 : vx u * vy a - vy u * vx a = inner a a * vz b - d * vz a) by (unfold u, vcross, d, inner; cbn; ring).
  assert (Pu : 2 * (vx u * vx a + vy u * vy a + vz u * vz a) = 0) by (unfold u, vcross; cbn; ring).
  subst q0. clearbody u. set (q0 := Qn (d + k) (vx u) (vy u) (vz u)).
  assert (N0 : squared_norm q0 = 2 * k * (k + d)) by (unfold squared_norm, q0; cbn; rewrite Eu; ring).
  assert (NP : 0 < 2 * k * (k + d)) by (apply Rmult_lt_0_compat; lra).
  unfold qnormalized. set (s := qnorm q0). assert (SS : s * s = 2 * k * (k + d)) by (unfold s, qnorm; rewrite N0; apply sqrt_sqrt; lra). assert (SP : 0 < s) by (unfold s, qnorm; rewrite N0; apply sqrt_lt_R0; exact NP).
  assert (ST : qtol <= s). { destruct (Rle_lt_dec qtol s) as [X|X]; [exact X|]. exfalso. assert (s * s < qtol * qtol) by nra. replace (2 * k * k * (1 + cosine a b)) with (2 * k * (k * (1 + cosine a b))) in L2 by ring. rewrite Ed in L2. lra. }
  destruct (Rlt_dec s qtol) as [|_]; [lra|].
  assert (U : unit (Qn (qw q0 / s) (qx q0 / s) (qy q0 / s) (qz q0 / s))).
  { unfold unit. cbn. transitivity (((d + k) * (d + k) + (vx u * vx u + vy u * vy u + vz u * vz u)) / (s * s)); [field; lra|]. rewrite Eu, SS. field. lra. }
  rewrite transform_sandwich by exact U.
  exists (length a / length b). split; [apply Rdiv_lt_0_compat; assumption|].
  assert (Eab : inner a a / k = length a / length b) by (unfold k; rewrite <- length_sq; field; lra).
  assert (Q : forall v, sandwich (Qn (qw q0 / s) (qx q0 / s) (qy q0 / s) (qz q0 / s)) v = V3 (vx (sandwich q0 v) / (s * s)) (vy (sandwich q0 v) / (s * s)) (vz (sandwich q0 v) / (s * s))) by (intro v; apply vec_eq; unfold sandwich; cbn; field; lra).
  rewrite Q, SS.
  assert (W : (d + k) * (d + k) - (vx u * vx u + vy u * vy u + vz u * vz u) = 2 * d * (d + k)) by (rewrite Eu; ring).
  rewrite <- Eab. apply vec_eq; unfold sandwich, q0; cbn [qw qx qy qz vx vy vz]; rewrite W, Pu; [rewrite C1|rewrite C2|rewrite C3]; field; lra.
Qed.
Print Assumptions two_vectors_partial.
(** Opposite vectors: half a turn, unless the first points straight down the z axis. *)
Lemma other_axis_cross : forall a, a <> zero3 -> ~ (vx a = 0 /\ vy a = 0 /\ vz a < 0) -> vcross a (other_axis a) <> zero3.
Proof.
  intros [x y z] A N E. cbn [vx vy vz] in N. unfold other_axis, vcross, zero3 in E. cbn [vx vy vz] in E.
  assert (AZ : ~ (x = 0 /\ y = 0 /\ z = 0)) by (intros (-> & -> & ->); apply A; reflexivity).
  destruct (Rlt_dec (Rabs x) (Rabs y)) as [L1|L1].
  - assert (y <> 0) by (intros ->; rewrite Rabs_R0 in L1; pose proof (Rabs_pos x); lra).
    destruct (Rlt_dec (Rabs x) (Rabs z)); cbn in E; injection E as E1 E2 E3; lra.
  - destruct (Rlt_dec y z) as [L2|L2]; cbn in E; injection E as E1 E2 E3.
    + assert (x = 0) by lra. assert (z = 0) by lra. subst x z. rewrite Rabs_R0 in L1. assert (Y : Rabs y = 0) by (pose proof (Rabs_pos y); lra).
      assert (y = 0) by (destruct (Req_dec y 0) as [|Q]; [assumption|]; exfalso; exact (Rabs_no_R0 y Q Y)). lra.
    + assert (x = 0) by lra. assert (y = 0) by lra. subst x y. destruct (Rtotal_order z 0) as [T|[T|T]]; [apply N; auto|apply AZ; auto|lra].
Qed.
Theorem two_vectors_opposite_partial : forall a b, a <> zero3 -> b <> zero3 -> 1 + cosine a b < qtol -> ~ (vx a = 0 /\ vy a = 0 /\ vz a < 0) ->
  exists q, from_two_vectors a b = Some q /\ unit q /\ transform_vector q a = V3 (- vx a) (- vy a) (- vz a) /\
    (cosine a b = -1 -> same_direction b (transform_vector q a)).
Proof.
  intros a b A B L N. rewrite from_two_test by assumption. destruct (Rlt_dec (1 + cosine a b) qtol) as [_|]; [|contradiction].
  pose proof (other_axis_cross a A N) as NZ. set (o := other_axis a) in *. set (u := vcross a o) in *. pose proof (length_pos u NZ) as PU.
 assert (Pu : vx u * vx a + vy u * vy a + vz u * vz a = 0) by (unfold u, vcross; cbn; ring). clearbody u.
  unfold vnormalized. rewrite vnorm_length. destruct (Req_EM_T (length u) 0) as [|_]; [lra|]. eexists. split; [reflexivity|]. cbn [vx vy vz].
  set (n := length u) in *. assert (EN : n * n = vx u * vx u + vy u * vy u + vz u * vz u) by (unfold n; rewrite length_sq; reflexivity).
  assert (U : unit (Qn 0 (vx u / n) (vy u / n) (vz u / n))) by (unfold unit; cbn; transitivity ((vx u * vx u + vy u * vy u + vz u * vz u) / (n * n)); [field; lra|rewrite <- EN; field; lra]).
  split; [exact U|]. assert (T : transform_vector (Qn 0 (vx u / n) (vy u / n) (vz u / n)) a = V3 (- vx a) (- vy a) (- vz a)).
  { rewrite transform_sandwich by exact U.
    assert (Pn : 2 * (vx u / n * vx a + vy u / n * vy a + vz u / n * vz a) = 0) by (transitivity (2 * (vx u * vx a + vy u * vy a + vz u * vz a) / n); [field; lra|rewrite Pu; field; lra]).
    assert (W : 0 * 0 - (vx u / n * (vx u / n) + vy u / n * (vy u / n) + vz u / n * (vz u / n)) = -1) by (unfold unit in U; cbn in U; lra).
    apply vec_eq; unfold sandwich; cbn [qw qx qy qz vx vy vz]; rewrite Pn, W; ring. }
  split; [exact T|]. intro C. rewrite T. pose proof (length_pos a A) as PA. pose proof (length_pos b B) as PB. exists (length a / length b). split; [apply Rdiv_lt_0_compat; assumption|].
  (* |b| a + |a| b has length zero *)
  assert (D : inner a b = - (length a * length b)) by (apply (Rmult_eq_reg_r (/ (length a * length b))); [fold (cosine a b); unfold cosine in C; unfold Rdiv in C; rewrite C; field; lra|apply Rinv_neq_0_compat; apply Rgt_not_eq; apply Rmult_lt_0_compat; assumption]).
  set (p := length a) in *. set (r := length b) in *. pose proof (length_sq a) as SA. pose proof (length_sq b) as SB. fold p in SA. fold r in SB.
  set (w := V3 (r * vx a + p * vx b) (r * vy a + p * vy b) (r * vz a + p * vz b)).
  assert (Z : length w = 0).
  { unfold length. replace (inner w w) with 0; [apply sqrt_0|]. transitivity (r * r * inner a a + 2 * r * p * inner a b + p * p * inner b b); [rewrite <- SA, <- SB, D; ring|unfold w, inner; cbn; ring]. }
  apply length_zero in Z. unfold w, zero3 in Z. injection Z as Z1 Z2 Z3.
  assert (X : forall s t, r * s + p * t = 0 -> - s = p / r * t) by (intros s t E; apply (Rmult_eq_reg_r r); [|lra]; replace (p / r * t * r) with (p * t) by (field; lra); lra).
  apply vec_eq; cbn; apply X; assumption.
Qed.
Print Assumptions two_vectors_opposite_partial.
(** From straight down to straight up there is no result: the axis is zero over zero. *)
Theorem two_vectors_down_refuted : exists a b, a <> zero3 /\ b <> zero3 /\ length a = 1 /\ length b = 1 /\ from_two_vectors a b = None.
Proof.
  exists (V3 0 0 (-1)), (V3 0 0 1). assert (NA : V3 0 0 (-1) <> zero3) by (intro E; injection E; lra). assert (NB : V3 0 0 1 <> zero3) by (intro E; injection E; lra).
  assert (LA : length (V3 0 0 (-1)) = 1) by (unfold length, inner; cbn; replace (0 * 0 + 0 * 0 + -1 * -1) with 1 by ring; apply sqrt_1).
  assert (LB : length (V3 0 0 1) = 1) by (unfold length, inner; cbn; replace (0 * 0 + 0 * 0 + 1 * 1) with 1 by ring; apply sqrt_1).
  repeat (split; [assumption|]). rewrite from_two_test by assumption. unfold cosine. rewrite LA, LB.
  destruct (Rlt_dec (1 + inner (V3 0 0 (-1)) (V3 0 0 1) / (1 * 1)) qtol) as [_|L].
  - unfold other_axis. cbn [vx vy vz]. rewrite Rabs_R0. destruct (Rlt_dec 0 0); [lra|]. destruct (Rlt_dec 0 (-1)); [lra|].
    replace (vcross (V3 0 0 (-1)) (V3 0 0 1)) with zero3 by (apply vec_eq; unfold vcross; cbn; ring).
    unfold vnormalized. destruct (Req_EM_T (vnorm zero3) 0) as [|N]; [reflexivity|]. exfalso. apply N. unfold vnorm, zero3. cbn. replace (0 * 0 + 0 * 0 + 0 * 0) with 0 by ring. apply sqrt_0.
  - exfalso. apply L. pose proof qtol_pos. unfold inner. cbn. lra.
Qed.
Print Assumptions two_vectors_down_refuted.
(** Perpendicular vectors of length 1e-8: no rotation at all. *)
Theorem two_vectors_small_refuted : exists a b q, a <> zero3 /\ b <> zero3 /\ inner a b = 0 /\ from_two_vectors a b = Some q /\ ~ same_direction b (transform_vector q a).
Proof.
  set (e := 1 / 10 ^ 8). assert (Ee : e = 1 / 100000000) by (unfold e; cbn; lra). exists (V3 e 0 0), (V3 0 e 0), qidentity.
  assert (NA : V3 e 0 0 <> zero3) by (intro E; injection E; lra). assert (NB : V3 0 e 0 <> zero3) by (intro E; injection E; lra).
  assert (LA : length (V3 e 0 0) = e) by (unfold length, inner; cbn; replace (e * e + 0 * 0 + 0 * 0) with (Rsqr e) by (unfold Rsqr; ring); apply sqrt_Rsqr; lra).
  assert (LB : length (V3 0 e 0) = e) by (unfold length, inner; cbn; replace (0 * 0 + e * e + 0 * 0) with (Rsqr e) by (unfold Rsqr; ring); apply sqrt_Rsqr; lra).
  assert (I : inner (V3 e 0 0) (V3 0 e 0) = 0) by (unfold inner; cbn; ring). repeat (split; [assumption|]). split.
  - rewrite from_two_test by assumption. unfold cosine. rewrite I, LA, LB. destruct (Rlt_dec (1 + 0 / (e * e)) qtol) as [L|_].
    + exfalso. unfold Rdiv in L. rewrite Rmult_0_l in L. pose proof qtol_small. lra.
    + f_equal. unfold qnormalized. match goal with |- (if Rlt_dec (qnorm ?x) _ then _ else _) = _ => set (q0 := x); assert (S : squared_norm q0 = 2 * (e * e) * (e * e)) by (unfold q0, squared_norm, vcross; cbn; ring) end.
      destruct (Rlt_dec (qnorm q0) qtol) as [|N]; [reflexivity|]. exfalso. apply N. unfold qnorm. rewrite S. rewrite <- (sqrt_Rsqr qtol) by (pose proof qtol_pos; lra).
      apply sqrt_lt_1; unfold Rsqr, qtol; try rewrite Ee; cbn; lra.
  - rewrite identity_transform. intros (k & _ & E). injection E as E1 E2 E3. lra.
Qed.
Print Assumptions two_vectors_small_refuted.
Example two_vectors_ex : exists q, from_two_vectors (V3 1 0 0) (V3 0 2 0) = Some q /\ unit q /\ same_direction (V3 0 2 0) (transform_vector q (V3 1 0 0)).
Proof.
  assert (LA : length (V3 1 0 0) = 1) by (unfold length, inner; cbn; replace (1 * 1 + 0 * 0 + 0 * 0) with 1 by ring; apply sqrt_1).
  assert (LB : length (V3 0 2 0) = 2) by (unfold length, inner; cbn; replace (0 * 0 + 2 * 2 + 0 * 0) with (Rsqr 2) by (unfold Rsqr; ring); apply sqrt_Rsqr; lra).
  assert (C : cosine (V3 1 0 0) (V3 0 2 0) = 0) by (unfold cosine, inner; cbn; rewrite LA, LB; field).
  pose proof qtol_small. pose proof qtol_pos. apply two_vectors_partial; [intro E; injection E; lra|intro E; injection E; lra|rewrite C; lra|rewrite C, LA, LB; nra].
Qed.

(** ** Interpolation *)
Lemma slerp_norm : forall A B, sin (A + B) <> 0 ->
  let k0 := sin A / sin (A + B) in let k1 := sin B / sin (A + B) in k0 * k0 + k1 * k1 + 2 * k0 * k1 * cos (A + B) = 1.
Proof.
  intros A B N. cbv zeta. pose proof (sin2_cos2 A) as SA. pose proof (sin2_cos2 B) as SB. unfold Rsqr in *.
  apply (Rmult_eq_reg_r (sin (A + B) * sin (A + B))); [|intro Z; apply Rmult_integral in Z; tauto].
  transitivity (sin A * sin A + sin B * sin B + 2 * sin A * sin B * cos (A + B)); [field; exact N|]. rewrite cos_plus, sin_plus.
  assert (EA : cos A * cos A = 1 - sin A * sin A) by lra. assert (EB : cos B * cos B = 1 - sin B * sin B) by lra. ring [EA EB].
Qed.
Lemma acos_nondegenerate : forall a, 0 <= a < 1 -> cos (acos a) = a /\ 0 < sin (acos a) /\ 0 < acos a <= PI / 2.
Proof.
  intros a L. assert (C : cos (acos a) = a) by (apply cos_acos; lra). pose proof (acos_bound a) as B. pose proof PI_RGT_0.
  assert (P : 0 < acos a). { destruct (Rle_lt_or_eq_dec 0 (acos a) (proj1 B)) as [|E]; [assumption|]. rewrite <- E, cos_0 in C. lra. }
  assert (Q : acos a <= PI / 2). { destruct (Rle_lt_dec (acos a) (PI / 2)) as [|X]; [assumption|]. exfalso. assert (cos (acos a) < 0) by (apply cos_lt_0; lra). lra. }
  split; [exact C|]. split; [apply sin_gt_0; lra|lra].
Qed.
Definition mirror (s : bool) (q : quat) : quat := if s then opposite q else q.
Theorem slerp_unit : forall p q t, unit p -> unit q -> Rabs (qdot p q) < 1 - qtol ->
  let s := if Rlt_dec (qdot p q) 0 then true else false in
  unit (slerp p t q) /\ slerp p 0 q = p /\ slerp p 1 q = mirror s q /\
  qdot p (slerp p t q) = cos (t * acos (Rabs (qdot p q))) /\ qdot (mirror s q) (slerp p t q) = cos ((1 - t) * acos (Rabs (qdot p q))).
Proof.
  intros p q t U U' L s. pose proof qtol_pos as TP. pose proof (Rabs_pos (qdot p q)) as AP. destruct (acos_nondegenerate (Rabs (qdot p q)) ltac:(lra)) as (C & S & _). set (th := acos (Rabs (qdot p q))) in *.
  assert (SL : forall t, slerp p t q = let k0 := sin ((1 - t) * th) / sin th in let k1 := sin (t * th) / sin th in let q' := mirror s q in
    Qn (qw p * k0 + qw q' * k1) (qx p * k0 + qx q' * k1) (qy p * k0 + qy q' * k1) (qz p * k0 + qz q' * k1)).
  { intro t0. unfold slerp. destruct (Rlt_dec (Rabs (qdot p q)) (1 - qtol)) as [_|]; [|contradiction]. cbn [fst snd]. fold th. unfold s, mirror. destruct (Rlt_dec (qdot p q) 0); apply quat_eq; unfold opposite; cbn; ring. }
  assert (U'' : unit (mirror s q)) by (unfold mirror; destruct s; [unfold unit, opposite in *; cbn; lra|exact U']).
  assert (D : qdot p (mirror s q) = cos th).
  { rewrite C. unfold s, mirror. destruct (Rlt_dec (qdot p q) 0) as [N|N]; [rewrite Rabs_left by exact N|rewrite Rabs_right by lra; reflexivity]. unfold qdot, opposite; cbn; ring. }
  set (q' := mirror s q) in *. unfold unit in U, U''. unfold qdot in D.
  assert (TH : forall t, (1 - t) * th + t * th = th) by (intro; ring).
  split; [|split; [|split; [|split]]].
  - rewrite SL. cbv zeta. pose proof (slerp_norm ((1 - t) * th) (t * th)) as X. rewrite TH in X. specialize (X ltac:(lra)). cbv zeta in X.
    set (k0 := sin ((1 - t) * th) / sin th) in *. set (k1 := sin (t * th) / sin th) in *. unfold unit. cbn.
    transitivity (k0 * k0 * (qw p * qw p + qx p * qx p + qy p * qy p + qz p * qz p) + k1 * k1 * (qw q' * qw q' + qx q' * qx q' + qy q' * qy q' + qz q' * qz q')
      + 2 * k0 * k1 * (qw q' * qw p + qx q' * qx p + qy q' * qy p + qz q' * qz p)); [ring|]. rewrite U, U'', D. lra.
  - rewrite SL. cbv zeta. replace ((1 - 0) * th) with th by ring. replace (0 * th) with 0 by ring. rewrite sin_0. apply quat_eq; cbn; field; lra.
  - rewrite SL. cbv zeta. replace ((1 - 1) * th) with 0 by ring. replace (1 * th) with th by ring. rewrite sin_0. apply quat_eq; cbn; field; lra.
  - rewrite SL. unfold qdot. cbn. set (k0 := sin ((1 - t) * th) / sin th). set (k1 := sin (t * th) / sin th).
    transitivity (k0 * (qw p * qw p + qx p * qx p + qy p * qy p + qz p * qz p) + k1 * (qw q' * qw p + qx q' * qx p + qy q' * qy p + qz q' * qz p)); [ring|]. rewrite U, D. unfold k0, k1.
    replace ((1 - t) * th) with (th - t * th) by ring. rewrite sin_minus. field. lra.
  - rewrite SL. unfold qdot. cbn. set (k0 := sin ((1 - t) * th) / sin th). set (k1 := sin (t * th) / sin th).
    transitivity (k0 * (qw q' * qw p + qx q' * qx p + qy q' * qy p + qz q' * qz p) + k1 * (qw q' * qw q' + qx q' * qx q' + qy q' * qy q' + qz q' * qz q')); [ring|]. rewrite U'', D. unfold k0, k1.
    replace (t * th) with (th - (1 - t) * th) by ring. rewrite sin_minus. field. lra.
Qed.
Print Assumptions slerp_unit.
(** Nearly equal rotations: the result is of unit length up to the tolerance. *)
Theorem slerp_nearly_unit : forall p q t, unit p -> unit q -> 1 - qtol <= Rabs (qdot p q) -> 0 <= t <= 1 -> 1 - qtol <= squared_norm (slerp p t q) <= 1.
Proof.
  intros p q t U U' L T. pose proof qtol_pos as TP.
  assert (AB : Rabs (qdot p q) <= 1).
  { assert (X : qdot p q * qdot p q <= 1). { unfold unit in *. unfold qdot. destruct p as [a b c d], q as [a' b' c' d']. cbn in *.
      assert (Y : (a * a + b * b + c * c + d * d) * (a' * a' + b' * b' + c' * c' + d' * d') - (a' * a + b' * b + c' * c + d' * d) * (a' * a + b' * b + c' * c + d' * d)
        = (a * b' - b * a') * (a * b' - b * a') + (a * c' - c * a') * (a * c' - c * a') + (a * d' - d * a') * (a * d' - d * a') + (b * c' - c * b') * (b * c' - c * b') + (b * d' - d * b') * (b * d' - d * b') + (c * d' - d * c') * (c * d' - d * c')) by ring.
      rewrite U, U' in Y. pose proof (Rle_0_sqr (a * b' - b * a')). pose proof (Rle_0_sqr (a * c' - c * a')). pose proof (Rle_0_sqr (a * d' - d * a')). pose proof (Rle_0_sqr (b * c' - c * b')). pose proof (Rle_0_sqr (b * d' - d * b')). pose proof (Rle_0_sqr (c * d' - d * c')). unfold Rsqr in *. lra. }
    apply Rabs_le. split; nra. }
  assert (N : squared_norm (slerp p t q) = (1 - t) * (1 - t) + t * t + 2 * (1 - t) * t * Rabs (qdot p q)).
  { unfold slerp. destruct (Rlt_dec (Rabs (qdot p q)) (1 - qtol)) as [|_]; [lra|]. cbn [fst snd]. unfold unit in *.
    destruct (Rlt_dec (qdot p q) 0) as [Z|Z]; [rewrite Rabs_left by exact Z|rewrite Rabs_right by lra]; unfold squared_norm; cbn [qw qx qy qz].
    - transitivity ((1 - t) * (1 - t) * (qw p * qw p + qx p * qx p + qy p * qy p + qz p * qz p) + t * t * (qw q * qw q + qx q * qx q + qy q * qy q + qz q * qz q) - 2 * (1 - t) * t * qdot p q); [unfold qdot; ring|rewrite U, U'; ring].
    - transitivity ((1 - t) * (1 - t) * (qw p * qw p + qx p * qx p + qy p * qy p + qz p * qz p) + t * t * (qw q * qw q + qx q * qx q + qy q * qy q + qz q * qz q) + 2 * (1 - t) * t * qdot p q); [unfold qdot; ring|rewrite U, U'; ring]. }
  rewrite N. set (a := Rabs (qdot p q)) in *. assert (0 <= (1 - t) * t) by (apply Rmult_le_pos; lra). assert ((1 - t) * t <= / 4) by (pose proof (Rle_0_sqr (t - / 2)) as X; unfold Rsqr in X; lra).
  split; nra.
Qed.
Print Assumptions slerp_nearly_unit.

(** ** Distance *)
Lemma distance_half : forall p q, unit p -> unit q -> let h := angular_distance p q / 2 in 0 <= h <= PI / 2 /\ cos h = Rabs (qdot p q).
Proof.
  intros p q U U'. cbv zeta. unfold angular_distance. set (d := qmul p (conjugate q)). assert (UD : unit d) by (apply unit_mul; [exact U|apply conjugate_unit; exact U']).
  assert (W : qw d = qdot p q) by (unfold d, qmul, conjugate, qdot; cbn; ring). replace (2 * atan2 (vnorm (qvec d)) (Rabs (qw d)) / 2) with (atan2 (vnorm (qvec d)) (Rabs (qw d))) by field.
  set (n := vnorm (qvec d)). set (w := Rabs (qw d)). assert (NP : 0 <= n) by apply sqrt_pos. assert (WP : 0 <= w) by apply Rabs_pos.
  assert (E : w * w + n * n = 1).
  { unfold n. rewrite vnorm_length, length_sq. unfold inner, w. cbn [qvec vx vy vz]. replace (Rabs (qw d) * Rabs (qw d)) with (qw d * qw d) by (rewrite <- Rabs_mult; rewrite Rabs_right; [reflexivity|nra]). unfold unit in UD. lra. }
  split.
  - pose proof (atan2_right n w WP). pose proof (atan2_nonneg n w WP NP). lra.
  - destruct (atan2_cos_sin n w) as (-> & _).
    + destruct (Req_dec w 0) as [Z|Z]; [right|left; exact Z]. intro Z'. rewrite Z, Z' in E. lra.
    + rewrite E, sqrt_1. unfold w. rewrite W. field.
Qed.
(** The distance is the largest angle between the images of one vector under the two rotations. *)
Theorem angular_distance_largest_angle : forall p q, unit p -> unit q ->
  0 <= angular_distance p q <= PI /\
  (forall v, cos (angular_distance p q) * inner v v <= inner (transform_vector p v) (transform_vector q v)) /\
  (exists v, v <> zero3 /\ inner (transform_vector p v) (transform_vector q v) = cos (angular_distance p q) * inner v v).
Proof.
  intros p q U U'. destruct (distance_half p q U U') as (B & C). cbv zeta in *. set (h := angular_distance p q / 2) in *. replace (angular_distance p q) with (2 * h) by (unfold h; field). split; [lra|].
  set (r := qmul (conjugate q) p). assert (UR : unit r) by (apply unit_mul; [apply conjugate_unit; exact U'|exact U]).
  assert (W : qw r = qdot p q) by (unfold r, qmul, conjugate, qdot; cbn; ring).
  assert (T : forall v, inner (transform_vector p v) (transform_vector q v) = inner (transform_vector r v) v).
  { intro v. unfold r. rewrite transform_composed by (auto using conjugate_unit). rewrite <- (transform_inner q (transform_vector (conjugate q) (transform_vector p v)) v U').
    destruct (inverse_undoes_rotation q (transform_vector p v) U') as (_ & X). rewrite qinverse_unit in X by exact U'. rewrite X. reflexivity. }
  assert (K : cos (2 * h) = qw r * qw r - (qx r * qx r + qy r * qy r + qz r * qz r)).
  { rewrite cos_2a_cos, C. rewrite W. assert (Rabs (qdot p q) * Rabs (qdot p q) = qdot p q * qdot p q) as X by (rewrite <- Rabs_mult; apply Rabs_right; nra). unfold unit in UR. rewrite <- W in *. lra. }
  assert (G : forall v, inner (transform_vector r v) v = cos (2 * h) * inner v v + 2 * ((qx r * vx v + qy r * vy v + qz r * vz v) * (qx r * vx v + qy r * vy v + qz r * vz v))).
  { intro v. rewrite transform_sandwich by exact UR. rewrite K. unfold inner, sandwich. cbn. ring. }
  split.
  - intro v. rewrite T, G. pose proof (Rle_0_sqr (qx r * vx v + qy r * vy v + qz r * vz v)) as X. unfold Rsqr in X. lra.
  - assert (P : exists v, v <> zero3 /\ qx r * vx v + qy r * vy v + qz r * vz v = 0).
    { clearbody r. destruct (Req_dec (qx r) 0) as [X|X]; [exists (V3 1 0 0); split; [intro E; injection E; lra|cbn; lra]|]. exists (V3 (- qy r) (qx r) 0). split; [intro E; injection E; lra|cbn; ring]. }
    destruct P as (v & NV & PV). exists v. split; [exact NV|]. rewrite T, G, PV. ring.
Qed.
Print Assumptions angular_distance_largest_angle.
Lemma cs4 : forall a b c d a' b' c' d' : R, (a * a' + b * b' + c * c' + d * d') * (a * a' + b * b' + c * c' + d * d') <= (a * a + b * b + c * c + d * d) * (a' * a' + b' * b' + c' * c' + d' * d').
Proof.
  intros. assert (Y : (a * a + b * b + c * c + d * d) * (a' * a' + b' * b' + c' * c' + d' * d') - (a * a' + b * b' + c * c' + d * d') * (a * a' + b * b' + c * c' + d * d')
        = (a * b' - b * a') * (a * b' - b * a') + (a * c' - c * a') * (a * c' - c * a') + (a * d' - d * a') * (a * d' - d * a') + (b * c' - c * b') * (b * c' - c * b') + (b * d' - d * b') * (b * d' - d * b') + (c * d' - d * c') * (c * d' - d * c')) by ring.
  pose proof (Rle_0_sqr (a * b' - b * a')). pose proof (Rle_0_sqr (a * c' - c * a')). pose proof (Rle_0_sqr (a * d' - d * a')). pose proof (Rle_0_sqr (b * c' - c * b')). pose proof (Rle_0_sqr (b * d' - d * b')). pose proof (Rle_0_sqr (c * d' - d * c')). unfold Rsqr in *. lra.
Qed.
(** It is a distance between rotations. *)
Theorem angular_distance_metric : forall p q r, unit p -> unit q -> unit r ->
  angular_distance p q = angular_distance q p /\
  (angular_distance p q = 0 <-> (forall v, transform_vector p v = transform_vector q v)) /\
  angular_distance p r <= angular_distance p q + angular_distance q r.
Proof.
  intros p q r U U' U''. destruct (distance_half p q U U') as (B1 & C1). destruct (distance_half q p U' U) as (B2 & C2). destruct (distance_half q r U' U'') as (B3 & C3). destruct (distance_half p r U U'') as (B4 & C4).
  cbv zeta in *. pose proof PI_RGT_0 as PP. split; [|split].
  - assert (angular_distance p q / 2 = angular_distance q p / 2); [|lra]. apply half_angle_unique; try lra. rewrite C1, C2. f_equal. unfold qdot. ring.
  - assert (Z : angular_distance p q = 0 <-> Rabs (qdot p q) = 1).
    { split; intro H; [rewrite <- C1, H; replace (0 / 2) with 0 by field; apply cos_0|]. assert (angular_distance p q / 2 = 0); [|lra]. apply half_angle_unique; try lra. rewrite C1, H, cos_0. reflexivity. }
    rewrite Z. rewrite (same_rotation_iff p q U U'). unfold unit in U, U'. split.
    + intro A. assert (Sq : forall a b c d : R, a * a + b * b + c * c + d * d = 0 -> a = 0 /\ b = 0 /\ c = 0 /\ d = 0).
      { intros a b c d S. pose proof (Rle_0_sqr a). pose proof (Rle_0_sqr b). pose proof (Rle_0_sqr c). pose proof (Rle_0_sqr d). unfold Rsqr in *. repeat split; apply Rsqr_0_uniq; unfold Rsqr; lra. }
      destruct (Rcase_abs (qdot p q)) as [L|L]; [rewrite Rabs_left in A by exact L; right|rewrite Rabs_right in A by exact L; left]; unfold qdot in A.
      * assert (S : (qw p + qw q) * (qw p + qw q) + (qx p + qx q) * (qx p + qx q) + (qy p + qy q) * (qy p + qy q) + (qz p + qz q) * (qz p + qz q) = 0) by lra.
        apply Sq in S. destruct S as (? & ? & ? & ?). apply quat_eq; unfold opposite; cbn; lra.
      * assert (S : (qw p - qw q) * (qw p - qw q) + (qx p - qx q) * (qx p - qx q) + (qy p - qy q) * (qy p - qy q) + (qz p - qz q) * (qz p - qz q) = 0) by lra.
        apply Sq in S. destruct S as (? & ? & ? & ?). apply quat_eq; lra.
    + intros [-> | ->]; unfold qdot, opposite; cbn [qw qx qy qz].
      * rewrite U'. apply Rabs_R1.
      * replace (qw q * - qw q + qx q * - qx q + qy q * - qy q + qz q * - qz q) with (-1) by lra. rewrite Rabs_left; lra.
  - set (a := angular_distance p q / 2) in *. set (b := angular_distance q r / 2) in *. set (c := angular_distance p r / 2) in *. assert (G : c <= a + b); [|unfold a, b, c in G; lra].
    destruct (Rle_lt_dec c (a + b)) as [X|X]; [exact X|]. exfalso.
    assert (D : cos c < cos (a + b)) by (apply cos_decreasing_1; lra). rewrite C4, cos_plus in D.
    (* signs making the two products nonnegative *)
    assert (SG : forall x, exists s, s * s = 1 /\ s * x = Rabs x) by (intro x; destruct (Rcase_abs x) as [L|L]; [exists (-1); rewrite Rabs_left by exact L|exists 1; rewrite Rabs_right by exact L]; split; ring).
    destruct (SG (qdot p q)) as (s & SS & Es). destruct (SG (qdot q r)) as (t & TT & Et). rewrite <- C1 in Es. rewrite <- C3 in Et.
    assert (M : s * t * qdot p r <= Rabs (qdot p r)).
    { destruct (Rcase_abs (s * t * qdot p r)) as [L|L]; [pose proof (Rabs_pos (qdot p r)); lra|]. rewrite <- (Rabs_right (s * t * qdot p r)) by lra. rewrite Rabs_mult.
      assert (Rabs (s * t) = 1) as ->; [|lra]. assert (Y : Rabs (s * t) * Rabs (s * t) = 1) by (rewrite <- Rabs_mult; replace (s * t * (s * t)) with (s * s * (t * t)) by ring; rewrite SS, TT; replace (1 * 1) with 1 by ring; apply Rabs_R1).
      pose proof (Rabs_pos (s * t)). nra. }
    (* the parts orthogonal to q *)
    set (pw := s * qw p - cos a * qw q). set (px := s * qx p - cos a * qx q). set (py := s * qy p - cos a * qy q). set (pz := s * qz p - cos a * qz q).
    set (rw := t * qw r - cos b * qw q). set (rx := t * qx r - cos b * qx q). set (ry := t * qy r - cos b * qy q). set (rz := t * qz r - cos b * qz q).
    pose proof (cs4 pw px py pz rw rx ry rz) as CS. unfold unit in U, U', U''. unfold qdot in *.
    assert (N1 : pw * pw + px * px + py * py + pz * pz = sin a * sin a).
    { transitivity (s * s * (qw p * qw p + qx p * qx p + qy p * qy p + qz p * qz p) - 2 * cos a * (s * (qw q * qw p + qx q * qx p + qy q * qy p + qz q * qz p)) + cos a * cos a * (qw q * qw q + qx q * qx q + qy q * qy q + qz q * qz q)); [unfold pw, px, py, pz; ring|].
      rewrite SS, U, U', Es. pose proof (sin2_cos2 a) as Q. unfold Rsqr in Q. lra. }
    assert (N2 : rw * rw + rx * rx + ry * ry + rz * rz = sin b * sin b).
    { transitivity (t * t * (qw r * qw r + qx r * qx r + qy r * qy r + qz r * qz r) - 2 * cos b * (t * (qw r * qw q + qx r * qx q + qy r * qy q + qz r * qz q)) + cos b * cos b * (qw q * qw q + qx q * qx q + qy q * qy q + qz q * qz q)); [unfold rw, rx, ry, rz; ring|].
      rewrite TT, U'', U', Et. pose proof (sin2_cos2 b) as Q. unfold Rsqr in Q. lra. }
    assert (N3 : pw * rw + px * rx + py * ry + pz * rz = s * t * (qw r * qw p + qx r * qx p + qy r * qy p + qz r * qz p) - cos a * cos b).
    { transitivity (s * t * (qw r * qw p + qx r * qx p + qy r * qy p + qz r * qz p) - cos b * (s * (qw q * qw p + qx q * qx p + qy q * qy p + qz q * qz p)) - cos a * (t * (qw r * qw q + qx r * qx q + qy r * qy q + qz r * qz q)) + cos a * cos b * (qw q * qw q + qx q * qx q + qy q * qy q + qz q * qz q)); [unfold pw, px, py, pz, rw, rx, ry, rz; ring|].
      rewrite U', Es, Et. ring. }
    rewrite N1, N2, N3 in CS. set (z := s * t * (qw r * qw p + qx r * qx p + qy r * qy p + qz r * qz p)) in *.
    pose proof (sin_ge_0 a ltac:(lra) ltac:(lra)) as SA. pose proof (sin_ge_0 b ltac:(lra) ltac:(lra)) as SB. assert (SAB : 0 <= sin a * sin b) by (apply Rmult_le_pos; assumption).
    assert (L : z - cos a * cos b < - (sin a * sin b)) by lra. assert ((sin a * sin b) * (sin a * sin b) < (z - cos a * cos b) * (z - cos a * cos b)) by nra. lra.
Qed.
Print Assumptions angular_distance_metric.
(** IsApprox does not depend on the order. *)
Theorem is_approx_symmetric : forall p q e, is_approx p q e = is_approx q p e.
Proof.
  intros p q e. unfold is_approx. rewrite Rmin_comm. assert (E : forall p q, qnorm (Qn (qw p - qw q) (qx p - qx q) (qy p - qy q) (qz p - qz q)) = qnorm (Qn (qw q - qw p) (qx q - qx p) (qy q - qy p) (qz q - qz p))) by (intros; unfold qnorm, squared_norm; cbn; f_equal; ring).
  rewrite (E p q). reflexivity.
Qed.
Print Assumptions is_approx_symmetric.

(** Half a turn about z and a quarter turn about x. *)
Example unit_ex : unit (Qn (3/5) (4/5) 0 0) /\ unit (Qn 0 0 0 1).
Proof. unfold unit. cbn. lra. Qed.
Example transform_ex : transform_vector (Qn (3/5) (4/5) 0 0) (V3 1 2 3) = V3 1 (-86/25) (27/25).
Proof. apply vec_eq; unfold transform_vector, vadd, vscale, vcross, qvec; cbn; lra. Qed.
Example matrix_ex : exists q, quat_of_matrix (mat3 0 (-1) 0 1 0 0 0 0 1) = Some q /\ unit q /\ entries_equal (to_rotation_matrix q) (mat3 0 (-1) 0 1 0 0 0 0 1).
Proof. apply quaternion_of_rotation. split; intros; unfold inner, volume, linear, mat3; cbn; ring. Qed.
Example distance_ex : angular_distance (Qn 1 0 0 0) (Qn 0 0 0 1) = PI.
Proof.
  destruct (distance_half (Qn 1 0 0 0) (Qn 0 0 0 1)) as (B & C); [unfold unit; cbn; ring|unfold unit; cbn; ring|]. cbv zeta in *. unfold qdot in C. cbn in C. replace (0 * 1 + 0 * 0 + 0 * 0 + 1 * 0) with 0 in C by ring. rewrite Rabs_R0 in C.
  pose proof PI_RGT_0. assert (angular_distance (Qn 1 0 0 0) (Qn 0 0 0 1) / 2 = PI / 2); [|lra]. apply half_angle_unique; try lra. rewrite C, cos_PI2. reflexivity.
Qed.
