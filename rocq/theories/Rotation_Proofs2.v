(** Lemmas on atan2 and lengths. *)
From Coq Require Import Reals Arith Lia Lra Psatz Bool.
From Verif Require Import Base Matrix_Model Rotation_Model Rotation_Spec Rotation_Proofs.
Local Open Scope R_scope.

Lemma sqrt_sum_pos : forall x y, (x <> 0 \/ y <> 0) -> 0 < x * x + y * y.
Proof.
  intros x y H. pose proof (Rle_0_sqr x) as A. pose proof (Rle_0_sqr y) as B. unfold Rsqr in *.
  destruct H as [H|H]; [pose proof (Rsqr_pos_lt x H) as C|pose proof (Rsqr_pos_lt y H) as C]; unfold Rsqr in C; lra.
Qed.
(** cos and sin of atan. *)
Lemma atan_cos_sin : forall x y, 0 < x -> cos (atan (y / x)) = x / sqrt (x * x + y * y) /\ sin (atan (y / x)) = y / sqrt (x * x + y * y).
Proof.
  intros x y L. assert (P : 0 < x * x + y * y) by (apply sqrt_sum_pos; left; lra). set (r := sqrt (x * x + y * y)).
  assert (Pr : 0 < r) by (apply sqrt_lt_R0; exact P). assert (Er : r * r = x * x + y * y) by (apply sqrt_sqrt; lra).
  pose proof (atan_bound (y / x)) as B. assert (C : 0 < cos (atan (y / x))) by (apply cos_gt_0; lra).
  pose proof (tan_atan (y / x)) as T. unfold tan in T. set (c := cos (atan (y / x))) in *. set (s := sin (atan (y / x))) in *.
  assert (Es : s = c * (y / x)) by (rewrite <- T; field; lra). assert (SC : s * s + c * c = 1) by (pose proof (sin2_cos2 (atan (y / x))) as X; unfold Rsqr in X; exact X).
  assert (E : (c * r) * (c * r) = x * x).
  { transitivity (c * c * (r * r)); [ring|]. rewrite Er. assert (c * c * (x * x + y * y) = x * x * (s * s + c * c)) as -> by (rewrite Es; field; lra). rewrite SC. ring. }
  assert (E' : c * r = x). { assert (Z : (c * r - x) * (c * r + x) = 0) by lra. apply Rmult_integral in Z. assert (0 < c * r) by (apply Rmult_lt_0_compat; assumption). destruct Z; lra. }
  split; [rewrite <- E'; field; lra|]. rewrite Es, <- E'. field. split; lra.
Qed.
(** atan2 is the angle of the point (x, y) ... *)
Lemma atan2_cos_sin : forall y x, (x <> 0 \/ y <> 0) -> cos (atan2 y x) = x / sqrt (x * x + y * y) /\ sin (atan2 y x) = y / sqrt (x * x + y * y).
Proof.
  intros y x H. unfold atan2. destruct (Rlt_dec 0 x) as [L|L]; [apply atan_cos_sin; exact L|]. destruct (Rlt_dec x 0) as [L'|L'].
  - assert (E : y / x = (- y) / (- x)) by (field; lra). rewrite E. destruct (atan_cos_sin (- x) (- y)) as (C & D); [lra|]. replace (- x * - x + - y * - y) with (x * x + y * y) in * by ring.
    assert (Z : sqrt (x * x + y * y) <> 0) by (apply Rgt_not_eq, sqrt_lt_R0, sqrt_sum_pos; exact H).
    destruct (Rle_dec 0 y).
    + rewrite neg_cos, neg_sin, C, D. split; field; exact Z.
    + unfold Rminus. rewrite cos_plus, sin_plus, cos_neg, sin_neg, cos_PI, sin_PI, C, D. split; field; exact Z.
  - assert (x = 0) by lra. subst x. destruct H as [H|H]; [lra|]. replace (0 * 0 + y * y) with (Rsqr y) by (unfold Rsqr; ring). rewrite sqrt_Rsqr_abs.
    destruct (Rlt_dec 0 y) as [Y|Y]; [rewrite cos_PI2, sin_PI2, Rabs_right by lra; split; field; lra|].
    destruct (Rlt_dec y 0) as [Y'|Y']; [rewrite cos_neg, sin_neg, cos_PI2, sin_PI2, Rabs_left by lra; split; field; lra|lra].
Qed.
(** ... between -pi and pi. *)
Lemma atan2_bound : forall y x, - PI < atan2 y x <= PI.
Proof.
  intros y x. pose proof PI_RGT_0 as P. unfold atan2. pose proof (atan_bound (y / x)) as B. destruct (Rlt_dec 0 x); [lra|]. destruct (Rlt_dec x 0) as [L|L].
  - destruct (Rle_dec 0 y) as [Y|Y].
    + split; [lra|]. assert (Q : y / x <= 0) by (unfold Rdiv; apply Rmult_le_0_l; [exact Y|left; apply Rinv_lt_0_compat; exact L] || (replace (y / x) with (- (y * / - x)) by (field; lra); assert (0 <= y * / - x) by (apply Rmult_le_pos; [exact Y|left; apply Rinv_0_lt_compat; lra]); lra)).
      assert (atan (y / x) <= 0); [|lra]. rewrite <- atan_0. destruct Q as [Q|Q]; [left; apply atan_increasing; exact Q|rewrite Q; lra].
    + assert (Q : 0 < y / x) by (replace (y / x) with ((- y) * / - x) by (field; lra); apply Rmult_lt_0_compat; [lra|apply Rinv_0_lt_compat; lra]).
      assert (0 < atan (y / x)); [|lra]. rewrite <- atan_0 at 1. apply atan_increasing; exact Q.
  - destruct (Rlt_dec 0 y); [lra|]. destruct (Rlt_dec y 0); lra.
Qed.
Lemma atan2_right : forall y x, 0 <= x -> - (PI / 2) <= atan2 y x <= PI / 2.
Proof.
  intros y x L. pose proof PI_RGT_0. unfold atan2. destruct (Rlt_dec 0 x) as [|N]; [pose proof (atan_bound (y / x)); lra|]. destruct (Rlt_dec x 0); [lra|]. destruct (Rlt_dec 0 y); [lra|]. destruct (Rlt_dec y 0); lra.
Qed.
Lemma atan2_nonneg : forall y x, 0 <= x -> 0 <= y -> 0 <= atan2 y x.
Proof.
  intros y x L M. pose proof PI_RGT_0. unfold atan2. destruct (Rlt_dec 0 x) as [P|N].
  - destruct M as [M|M].
    + left. rewrite <- atan_0 at 1. apply atan_increasing. apply Rdiv_lt_0_compat; assumption.
    + rewrite <- M. unfold Rdiv. rewrite Rmult_0_l, atan_0. lra.
  - destruct (Rlt_dec x 0); [lra|]. destruct (Rlt_dec 0 y); [lra|]. destruct (Rlt_dec y 0); lra.
Qed.
(** An angle between -pi and pi is known by its cosine and sine. *)
Lemma angle_unique : forall a b, - PI < a <= PI -> - PI < b <= PI -> cos a = cos b -> sin a = sin b -> a = b.
Proof.
  intros a b A B C S. pose proof PI_RGT_0 as P. assert (D : cos (a - b) = 1) by (rewrite cos_minus, C, S; pose proof (sin2_cos2 b) as X; unfold Rsqr in X; lra).
  assert (Q : sin ((a - b) / 2) * sin ((a - b) / 2) = 0).
  { assert (X : cos (2 * ((a - b) / 2)) = 1 - 2 * sin ((a - b) / 2) * sin ((a - b) / 2)) by apply cos_2a_sin. replace (2 * ((a - b) / 2)) with (a - b) in X by field. lra. }
  assert (Q' : sin ((a - b) / 2) = 0) by (apply Rmult_integral in Q; destruct Q; assumption).
  destruct (Rtotal_order ((a - b) / 2) 0) as [L|[E|L]]; [|lra|].
  - exfalso. assert (0 < sin (- ((a - b) / 2))) by (apply sin_gt_0; lra). rewrite sin_neg in H. lra.
  - exfalso. assert (0 < sin ((a - b) / 2)) by (apply sin_gt_0; lra). lra.
Qed.
Lemma half_angle_unique : forall a b, 0 <= a <= PI -> 0 <= b <= PI -> cos a = cos b -> a = b.
Proof.
  intros a b A B C. pose proof PI_RGT_0. apply angle_unique; try lra. assert (X : sin a * sin a = sin b * sin b) by (pose proof (sin2_cos2 a); pose proof (sin2_cos2 b); unfold Rsqr in *; rewrite C in *; lra).
  pose proof (sin_ge_0 a ltac:(lra) ltac:(lra)). pose proof (sin_ge_0 b ltac:(lra) ltac:(lra)).
  assert (Z : (sin a - sin b) * (sin a + sin b) = 0) by lra. apply Rmult_integral in Z. destruct Z; lra.
Qed.

(** Lengths. *)
Lemma vnorm_length : forall a, vnorm a = length a.
Proof. reflexivity. Qed.
Lemma inner_nonneg : forall a, 0 <= inner a a.
Proof. intros [x y z]. unfold inner. cbn. nra. Qed.
Lemma length_nonneg : forall a, 0 <= length a.
Proof. intro a. apply sqrt_pos. Qed.
Lemma length_sq : forall a, length a * length a = inner a a.
Proof. intro a. apply sqrt_sqrt, inner_nonneg. Qed.
Lemma length_zero : forall a, length a = 0 -> a = zero3.
Proof.
  intros [x y z] H. apply sqrt_eq_0 in H; [|apply inner_nonneg]. unfold inner in H. cbn in H.
  apply vec_eq; cbn; apply Rsqr_0_uniq; unfold Rsqr; nra.
Qed.
Lemma vdot_inner : forall a b, vdot a b = inner a b.
Proof. intros a b. unfold vdot, inner. ring. Qed.
Lemma cauchy_schwarz : forall a b, inner a b * inner a b <= inner a a * inner b b.
Proof.
  intros [a1 a2 a3] [b1 b2 b3]. unfold inner. cbn. assert (X : (a1 * a1 + a2 * a2 + a3 * a3) * (b1 * b1 + b2 * b2 + b3 * b3) - (a1 * b1 + a2 * b2 + a3 * b3) * (a1 * b1 + a2 * b2 + a3 * b3)
    = (a1 * b2 - a2 * b1) * (a1 * b2 - a2 * b1) + (a1 * b3 - a3 * b1) * (a1 * b3 - a3 * b1) + (a2 * b3 - a3 * b2) * (a2 * b3 - a3 * b2)) by ring.
  pose proof (Rle_0_sqr (a1 * b2 - a2 * b1)). pose proof (Rle_0_sqr (a1 * b3 - a3 * b1)). pose proof (Rle_0_sqr (a2 * b3 - a3 * b2)). unfold Rsqr in *. lra.
Qed.
Lemma cross_sq : forall a b, inner (vcross a b) (vcross a b) = inner a a * inner b b - inner a b * inner a b.
Proof. intros [a1 a2 a3] [b1 b2 b3]. unfold inner, vcross. cbn. ring. Qed.
