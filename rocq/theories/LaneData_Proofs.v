(** Facts about angles used in LaneData_Props. *)
From Coq Require Import Reals Lra Psatz.
From Verif Require Import Base Matrix_Model Rotation_Model Rotation_Spec Rotation_Proofs Rotation_Proofs2 LaneData_Model LaneData_Spec.
Local Open Scope R_scope.

Lemma made_unit : forall r, made r -> unit r.
Proof. intros r M. destruct M; unfold rot_default, from_rpy, from_quat, reverse; try apply normalized_unit. unfold unit, qidentity; cbn; ring. Qed.
Lemma unit_angle : forall u v, inner u u = 1 -> inner v v = 1 -> 0 <= acos (inner u v) <= PI /\ cos (acos (inner u v)) = inner u v.
Proof.
  intros u v U V. split; [apply acos_bound|]. apply cos_acos. pose proof (cauchy_schwarz u v) as C. rewrite U, V in C. split; nra.
Qed.
Lemma acos_unique : forall t x, 0 <= t <= PI -> cos t = x -> acos x = t.
Proof. intros t x B <-. apply acos_cos. exact B. Qed.
(** The angle between unit vectors satisfies the triangle inequality. *)
Lemma angle_triangle : forall u v w, inner u u = 1 -> inner v v = 1 -> inner w w = 1 -> acos (inner u w) <= acos (inner u v) + acos (inner v w).
Proof.
  intros u v w U V W. destruct (unit_angle u v U V) as (B1 & C1). destruct (unit_angle v w V W) as (B2 & C2). destruct (unit_angle u w U W) as (B3 & C3).
  set (a := acos (inner u v)) in *. set (b := acos (inner v w)) in *. set (c := acos (inner u w)) in *.
  destruct (Rle_lt_dec c (a + b)) as [X|X]; [exact X|exfalso]. assert (D : cos c < cos (a + b)) by (apply cos_decreasing_1; lra). rewrite cos_plus in D.
  pose proof (sin_ge_0 a ltac:(lra) ltac:(lra)) as SA. pose proof (sin_ge_0 b ltac:(lra) ltac:(lra)) as SB. assert (SAB : 0 <= sin a * sin b) by (apply Rmult_le_pos; assumption).
  set (p := vsub u (vscale (cos a) v)). set (q := vsub w (vscale (cos b) v)). pose proof (cauchy_schwarz p q) as CS.
  assert (N1 : inner p p = sin a * sin a).
  { transitivity (inner u u - 2 * cos a * inner u v + cos a * cos a * inner v v); [unfold p, inner, vsub, vscale; cbn; ring|]. rewrite U, V, <- C1. pose proof (sin2_cos2 a) as Q. unfold Rsqr in Q. lra. }
  assert (N2 : inner q q = sin b * sin b).
  { transitivity (inner w w - 2 * cos b * inner v w + cos b * cos b * inner v v); [unfold q, inner, vsub, vscale; cbn; ring|]. rewrite W, V, <- C2. pose proof (sin2_cos2 b) as Q. unfold Rsqr in Q. lra. }
  assert (N3 : inner p q = cos c - cos a * cos b).
  { transitivity (inner u w - cos b * inner u v - cos a * inner v w + cos a * cos b * inner v v); [unfold p, q, inner, vsub, vscale; cbn; ring|]. rewrite V, <- C1, <- C2, <- C3. ring. }
  rewrite N1, N2, N3 in CS. assert (cos c - cos a * cos b < - (sin a * sin b)) by lra. nra.
Qed.
Lemma length_unit : forall v, inner v v = 1 -> length v = 1.
Proof. intros v E. unfold length. rewrite E. apply sqrt_1. Qed.
(** The Euclidean norm of a sum. *)
Lemma length_add : forall a b, length (vadd a b) <= length a + length b.
Proof.
  intros a b. pose proof (length_nonneg a). pose proof (length_nonneg b). pose proof (length_nonneg (vadd a b)).
  apply Rsqr_incr_0; [unfold Rsqr|lra|lra]. rewrite length_sq. replace ((length a + length b) * (length a + length b)) with (length a * length a + length b * length b + 2 * (length a * length b)) by ring. rewrite !length_sq.
  replace (inner (vadd a b) (vadd a b)) with (inner a a + inner b b + 2 * inner a b) by (unfold inner, vadd; cbn; ring).
  assert (inner a b <= length a * length b); [|lra]. destruct (Rle_lt_dec (inner a b) 0) as [L|L]; [pose proof (Rmult_le_pos _ _ H H0); lra|].
  apply Rsqr_incr_0; [unfold Rsqr|lra|apply Rmult_le_pos; assumption]. replace (length a * length b * (length a * length b)) with ((length a * length a) * (length b * length b)) by ring. rewrite !length_sq. apply cauchy_schwarz.
Qed.
Lemma length_mono : forall a b, 0 <= vx a <= vx b -> 0 <= vy a <= vy b -> 0 <= vz a <= vz b -> length a <= length b.
Proof. intros a b X Y Z. unfold length. apply sqrt_le_1_alt. unfold inner. nra. Qed.
(** sin x / x decreases. *)
Lemma sin_ratio : forall x y, 0 <= x -> x <= y -> y <= PI / 2 -> x * sin y <= y * sin x.
Proof.
  intros x y X XY Y. pose proof PI_RGT_0 as P. destruct (Req_dec x 0) as [->|NX]; [rewrite sin_0; lra|]. destruct (Req_dec x y) as [->|NY]; [lra|].
  destruct (MVT_cor2 sin cos 0 x ltac:(lra) ltac:(intros; apply derivable_pt_lim_sin)) as (c1 & E1 & B1). destruct (MVT_cor2 sin cos x y ltac:(lra) ltac:(intros; apply derivable_pt_lim_sin)) as (c2 & E2 & B2).
  rewrite sin_0 in E1. assert (D : cos c2 < cos c1) by (apply cos_decreasing_1; lra).
  assert (E3 : sin x = cos c1 * x) by lra. assert (E4 : sin y = cos c1 * x + cos c2 * (y - x)) by lra. rewrite E3, E4.
  assert (cos c2 * (y - x) * x <= cos c1 * (y - x) * x); [|nra]. apply Rmult_le_compat_r; [lra|]. apply Rmult_le_compat_r; lra.
Qed.
Lemma sin_le : forall x, 0 <= x -> sin x <= x.
Proof. intros x X. destruct (Req_dec x 0) as [->|N]; [rewrite sin_0; lra|]. left. apply sin_lt_x. lra. Qed.
Lemma one_minus_cos : forall t, 1 - cos t = 2 * (sin (t / 2) * sin (t / 2)).
Proof. intro t. replace t with (2 * (t / 2)) at 1 by field. rewrite cos_2a_sin. lra. Qed.
(** Squares of angles against their cosines. *)
Lemma angle_upper : forall d t, 0 <= d -> d <= t -> t <= PI -> d * d * (1 - cos t) <= t * t * (1 - cos d).
Proof.
  intros d t D DT T. rewrite !one_minus_cos. pose proof (sin_ratio (d / 2) (t / 2) ltac:(lra) ltac:(lra) ltac:(lra)) as H. pose proof (sin_ge_0 (t / 2) ltac:(lra) ltac:(lra)). pose proof (sin_ge_0 (d / 2) ltac:(lra) ltac:(lra)).
  assert (d * sin (t / 2) <= t * sin (d / 2)) by lra. assert (0 <= d * sin (t / 2)) by (apply Rmult_le_pos; assumption). nra.
Qed.
Lemma angle_lower : forall d, 0 <= d <= PI -> 2 * (1 - cos d) <= d * d.
Proof. intros d D. rewrite one_minus_cos. pose proof (sin_le (d / 2) ltac:(lra)). pose proof (sin_ge_0 (d / 2) ltac:(lra) ltac:(lra)). nra. Qed.
