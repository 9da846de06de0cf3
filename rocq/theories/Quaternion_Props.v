(** Quaternions act as rotations. *)
From Coq Require Import Reals Arith Lia Lra Psatz Bool.
From Verif Require Import Base Matrix_Model Rotation_Model Rotation_Spec Rotation_Proofs.
Local Open Scope R_scope.

(** ** Unit quaternions are rotations *)
Theorem transform_rotation : forall q, unit q -> rotation (transform_vector q).
Proof. intros q U. split; intros; [apply transform_inner|apply transform_volume]; exact U. Qed.
Print Assumptions transform_rotation.
Theorem transform_length : forall q v, unit q -> length (transform_vector q v) = length v.
Proof. intros q v U. unfold length. rewrite transform_inner by exact U. reflexivity. Qed.
Print Assumptions transform_length.
Theorem transform_composes : forall p q v, unit p -> unit q ->
  unit (qmul p q) /\ transform_vector (qmul p q) v = transform_vector p (transform_vector q v).
Proof. intros p q v U U'. split; [apply unit_mul|apply transform_composed]; assumption. Qed.
Print Assumptions transform_composes.
Theorem inverse_undoes_rotation : forall q v, unit q ->
  transform_vector (qinverse q) (transform_vector q v) = v /\ transform_vector q (transform_vector (qinverse q) v) = v.
Proof.
  intros q v U. rewrite qinverse_unit by exact U. pose proof (conjugate_unit q U) as C. rewrite <- !transform_composed by assumption.
  destruct (qmul_conjugate q U) as (-> & ->). rewrite identity_transform. auto.
Qed.
Print Assumptions inverse_undoes_rotation.
(** Inverse() of any quaternion that is not tiny, and the norm of products. *)
Theorem inverse_of_quaternion : forall q, qtol < squared_norm q -> qmul q (qinverse q) = qidentity /\ qmul (qinverse q) q = qidentity.
Proof.
  intros [w x y z] L. pose proof qtol_pos as P. unfold qinverse. destruct (Rlt_dec qtol (squared_norm (Qn w x y z))) as [_|]; [|contradiction].
  set (n := squared_norm (Qn w x y z)) in *. assert (N : n <> 0) by lra. assert (E : w * w + x * x + y * y + z * z = n) by (unfold n, squared_norm; cbn; ring).
  split; apply quat_eq; unfold qmul, qidentity; cbn; try (field; exact N); apply (Rmult_eq_reg_r n); try exact N; field_simplify; try exact N; rewrite <- E; ring.
Qed.
Print Assumptions inverse_of_quaternion.
Theorem norm_of_product : forall p q, qnorm (qmul p q) = qnorm p * qnorm q.
Proof. intros p q. unfold qnorm. rewrite qmul_sqnorm. apply sqrt_mult; apply sqnorm_nonneg. Qed.
Print Assumptions norm_of_product.
Theorem product_associative : forall p q r, qmul (qmul p q) r = qmul p (qmul q r).
Proof. intros [w x y z] [w' x' y' z'] [w'' x'' y'' z'']. apply quat_eq; unfold qmul; cbn; ring. Qed.
Print Assumptions product_associative.

(** ** Matrices *)
(** ToRotationMatrix() of any quaternion is the rotation of the normalized one. *)
Theorem rotation_matrix_transforms : forall q v, linear (to_rotation_matrix q) v = transform_vector (qnormalized q) v.
Proof. intros q v. rewrite matrix_normalized. apply matrix_transform, normalized_unit. Qed.
Print Assumptions rotation_matrix_transforms.
Theorem rotation_matrix_rotates : forall q, rotation (linear (to_rotation_matrix q)).
Proof.
  intro q. destruct (transform_rotation (qnormalized q) (normalized_unit q)) as (I & V). split; intros; rewrite !rotation_matrix_transforms; auto.
Qed.
Print Assumptions rotation_matrix_rotates.
Theorem unit_matrix_transforms : forall q v, unit q -> mat_vec (to_rotation_matrix q) v = transform_vector q v.
Proof. intros q v U. rewrite <- matrix_transform by exact U. reflexivity. Qed.
Print Assumptions unit_matrix_transforms.
(** TransformVector() on a quaternion that is not of unit length is not that rotation. *)
Theorem transform_non_unit_refuted : exists q v, qtol < squared_norm q /\ mat_vec (to_rotation_matrix q) v <> transform_vector q v /\ length (transform_vector q v) <> length v.
Proof.
  exists (Qn 1 1 0 0), (V3 0 1 0). split; [unfold squared_norm, qtol; cbn; lra|]. assert (T : transform_vector (Qn 1 1 0 0) (V3 0 1 0) = V3 0 (-1) 2) by (apply vec_eq; unfold transform_vector, vadd, vscale, vcross, qvec; cbn; ring).
  assert (L : length (transform_vector (Qn 1 1 0 0) (V3 0 1 0)) <> length (V3 0 1 0)).
  { rewrite T. unfold length, inner. cbn. intro X. apply sqrt_inj in X; lra. }
  split; [|exact L]. intro E. apply L. rewrite <- E. unfold length. change (mat_vec ?m ?v) with (linear m v). rewrite (proj1 (rotation_matrix_rotates (Qn 1 1 0 0))). reflexivity.
Qed.
Print Assumptions transform_non_unit_refuted.

(** Two unit quaternions give the same rotation exactly when they are equal or opposite. *)
Lemma matrix_products : forall q, unit q -> let m := to_rotation_matrix q in
  4 * (qw q * qw q) = 1 + m 0%nat 0%nat + m 1%nat 1%nat + m 2%nat 2%nat /\ 4 * (qx q * qx q) = 1 + m 0%nat 0%nat - m 1%nat 1%nat - m 2%nat 2%nat /\
  4 * (qy q * qy q) = 1 - m 0%nat 0%nat + m 1%nat 1%nat - m 2%nat 2%nat /\ 4 * (qz q * qz q) = 1 - m 0%nat 0%nat - m 1%nat 1%nat + m 2%nat 2%nat /\
  4 * (qw q * qx q) = m 2%nat 1%nat - m 1%nat 2%nat /\ 4 * (qw q * qy q) = m 0%nat 2%nat - m 2%nat 0%nat /\ 4 * (qw q * qz q) = m 1%nat 0%nat - m 0%nat 1%nat /\
  4 * (qx q * qy q) = m 1%nat 0%nat + m 0%nat 1%nat /\ 4 * (qx q * qz q) = m 0%nat 2%nat + m 2%nat 0%nat /\ 4 * (qy q * qz q) = m 2%nat 1%nat + m 1%nat 2%nat.
Proof.
  intros q U. cbv zeta. unfold to_rotation_matrix. rewrite normalized_unit_id by exact U. destruct q as [w x y z]. unfold unit in U. cbn in U. cbn [mat3 qw qx qy qz]. repeat split; lra.
Qed.
Lemma linear_entries : forall a b, (forall v, linear a v = linear b v) -> entries_equal a b.
Proof.
  intros a b L. pose proof (L (V3 1 0 0)) as X. pose proof (L (V3 0 1 0)) as Y. pose proof (L (V3 0 0 1)) as Z. unfold linear in X, Y, Z. cbn [vx vy vz] in X, Y, Z.
  injection X as X1 X2 X3. injection Y as Y1 Y2 Y3. injection Z as Z1 Z2 Z3. intros i j Li Lj.
  destruct i as [|[|[|i]]]; destruct j as [|[|[|j]]]; try lia; lra.
Qed.
Theorem same_rotation_iff : forall p q, unit p -> unit q ->
  (forall v, transform_vector p v = transform_vector q v) <-> (p = q \/ p = opposite q).
Proof.
  intros p q U U'. split.
  - intro H. assert (E : entries_equal (to_rotation_matrix p) (to_rotation_matrix q)).
    { apply linear_entries. intro v. rewrite !matrix_transform by assumption. apply H. }
    destruct (matrix_products p U) as (A1 & A2 & A3 & A4 & A5 & A6 & A7 & A8 & A9 & A10). destruct (matrix_products q U') as (B1 & B2 & B3 & B4 & B5 & B6 & B7 & B8 & B9 & B10).
    rewrite !E in * by lia. assert (D : qdot p q * qdot p q = 1).
    { assert (F1 : qw p * qw p = qw q * qw q) by lra. assert (F2 : qx p * qx p = qx q * qx q) by lra. assert (F3 : qy p * qy p = qy q * qy q) by lra. assert (F4 : qz p * qz p = qz q * qz q) by lra.
      assert (G1 : qw p * qx p = qw q * qx q) by lra. assert (G2 : qw p * qy p = qw q * qy q) by lra. assert (G3 : qw p * qz p = qw q * qz q) by lra.
      assert (G4 : qx p * qy p = qx q * qy q) by lra. assert (G5 : qx p * qz p = qx q * qz q) by lra. assert (G6 : qy p * qz p = qy q * qz q) by lra.
      transitivity ((qw p * qw p) * (qw q * qw q) + (qx p * qx p) * (qx q * qx q) + (qy p * qy p) * (qy q * qy q) + (qz p * qz p) * (qz q * qz q)
        + 2 * ((qw p * qx p) * (qw q * qx q) + (qw p * qy p) * (qw q * qy q) + (qw p * qz p) * (qw q * qz q) + (qx p * qy p) * (qx q * qy q) + (qx p * qz p) * (qx q * qz q) + (qy p * qz p) * (qy q * qz q))); [unfold qdot; ring|].
      rewrite F1, F2, F3, F4, G1, G2, G3, G4, G5, G6. unfold unit in U'. transitivity ((qw q * qw q + qx q * qx q + qy q * qy q + qz q * qz q) * (qw q * qw q + qx q * qx q + qy q * qy q + qz q * qz q)); [ring|rewrite U'; ring]. }
    assert (C : qdot p q = 1 \/ qdot p q = -1). { assert (Z : (qdot p q - 1) * (qdot p q + 1) = 0) by lra. apply Rmult_integral in Z. destruct Z; [left|right]; lra. }
    unfold unit in U, U'. unfold qdot in C.
    assert (Sq : forall a b c d : R, a * a + b * b + c * c + d * d = 0 -> a = 0 /\ b = 0 /\ c = 0 /\ d = 0).
    { intros a b c d S. pose proof (Rle_0_sqr a). pose proof (Rle_0_sqr b). pose proof (Rle_0_sqr c). pose proof (Rle_0_sqr d). unfold Rsqr in *. repeat split; apply Rsqr_0_uniq; unfold Rsqr; lra. }
    destruct C as [C|C].
    + left. assert (S : (qw p - qw q) * (qw p - qw q) + (qx p - qx q) * (qx p - qx q) + (qy p - qy q) * (qy p - qy q) + (qz p - qz q) * (qz p - qz q) = 0) by lra.
      apply Sq in S. destruct S as (? & ? & ? & ?). apply quat_eq; lra.
    + right. assert (S : (qw p + qw q) * (qw p + qw q) + (qx p + qx q) * (qx p + qx q) + (qy p + qy q) * (qy p + qy q) + (qz p + qz q) * (qz p + qz q) = 0) by lra.
      apply Sq in S. destruct S as (? & ? & ? & ?). apply quat_eq; unfold opposite; cbn; lra.
  - intros [->| ->] v; [reflexivity|]. destruct q as [w x y z]. apply vec_eq; unfold transform_vector, vadd, vscale, vcross, qvec, opposite; cbn; ring.
Qed.
Print Assumptions same_rotation_iff.

(** Quaternion(matrix) on the matrix of any rotation is a unit quaternion of that rotation. *)
Lemma root_ok : forall x, 0 < x -> root x = Some (sqrt x) /\ sqrt x * sqrt x = x /\ 0 < sqrt x.
Proof. intros x L. unfold root. destruct (Rle_dec x 0); [lra|]. split; [reflexivity|]. split; [apply sqrt_sqrt; lra|apply sqrt_lt_R0; exact L]. Qed.
Theorem quaternion_of_rotation : forall m, rotation (linear m) -> exists q, quat_of_matrix m = Some q /\ unit q /\ entries_equal (to_rotation_matrix q) m.
Proof.
  intros m (I & V). set (a := m 0%nat 0%nat). set (b := m 0%nat 1%nat). set (c := m 0%nat 2%nat). set (d := m 1%nat 0%nat). set (e := m 1%nat 1%nat). set (f := m 1%nat 2%nat).
  set (g := m 2%nat 0%nat). set (h := m 2%nat 1%nat). set (i := m 2%nat 2%nat).
  (* the transpose has orthonormal rows *)
  pose proof (I (V3 1 0 0) (V3 1 0 0)) as Q00. pose proof (I (V3 0 1 0) (V3 0 1 0)) as Q11. pose proof (I (V3 0 0 1) (V3 0 0 1)) as Q22.
  pose proof (I (V3 1 0 0) (V3 0 1 0)) as Q01. pose proof (I (V3 1 0 0) (V3 0 0 1)) as Q02. pose proof (I (V3 0 1 0) (V3 0 0 1)) as Q12.
  pose proof (V (V3 1 0 0) (V3 0 1 0) (V3 0 0 1)) as QD.
  unfold inner, volume, linear in Q00, Q11, Q22, Q01, Q02, Q12, QD. cbn [vx vy vz] in Q00, Q11, Q22, Q01, Q02, Q12, QD. fold a b c d e f g h i in Q00, Q11, Q22, Q01, Q02, Q12, QD.
  assert (R00 : a * a + d * d + g * g = 1) by lra. assert (R11 : b * b + e * e + h * h = 1) by lra. assert (R22 : c * c + f * f + i * i = 1) by lra.
  assert (R01 : a * b + d * e + g * h = 0) by lra. assert (R02 : a * c + d * f + g * i = 0) by lra. assert (R12 : b * c + e * f + h * i = 0) by lra.
  assert (DET : a * (e * i - h * f) - d * (b * i - h * c) + g * (b * f - e * c) = 1) by lra.
  (* the products of the entries for the transpose: rows a d g / b e h / c f i *)
  pose proof (p_wx a d g b e h c f i R00 R11 R22 R01 R02 R12 DET) as Pwx. pose proof (p_wy a d g b e h c f i R00 R11 R22 R01 R02 R12 DET) as Pwy.
  pose proof (p_wz a d g b e h c f i R00 R11 R22 R01 R02 R12 DET) as Pwz. pose proof (p_xy a d g b e h c f i R00 R11 R22 R01 R02 R12 DET) as Pxy.
  pose proof (p_xz a d g b e h c f i R00 R11 R22 R01 R02 R12 DET) as Pxz. pose proof (p_yz a d g b e h c f i R00 R11 R22 R01 R02 R12 DET) as Pyz.
  pose proof (p_wxwy a d g b e h c f i R00 R11 R22 R01 R02 R12 DET) as P1. pose proof (p_wxwz a d g b e h c f i R00 R11 R22 R01 R02 R12 DET) as P2. pose proof (p_wywz a d g b e h c f i R00 R11 R22 R01 R02 R12 DET) as P3.
  pose proof (p_wxxy a d g b e h c f i R00 R11 R22 R01 R02 R12 DET) as P4. pose proof (p_wxxz a d g b e h c f i R00 R11 R22 R01 R02 R12 DET) as P5. pose proof (p_xyxz a d g b e h c f i R00 R11 R22 R01 R02 R12 DET) as P6.
  pose proof (p_wyxy a d g b e h c f i R00 R11 R22 R01 R02 R12 DET) as P7. pose proof (p_wyyz a d g b e h c f i R00 R11 R22 R01 R02 R12 DET) as P8. pose proof (p_xyyz a d g b e h c f i R00 R11 R22 R01 R02 R12 DET) as P9.
  pose proof (p_wzxz a d g b e h c f i R00 R11 R22 R01 R02 R12 DET) as P10. pose proof (p_wzyz a d g b e h c f i R00 R11 R22 R01 R02 R12 DET) as P11. pose proof (p_xzyz a d g b e h c f i R00 R11 R22 R01 R02 R12 DET) as P12.
  clear I V Q00 Q11 Q22 Q01 Q02 Q12 QD R00 R11 R22 R01 R02 R12 DET.
  (* it is enough to know the ten products of the coefficients *)
  assert (G : forall w x y z, 4 * (w * w) = 1 + a + e + i -> 4 * (x * x) = 1 + a - e - i -> 4 * (y * y) = 1 - a + e - i -> 4 * (z * z) = 1 - a - e + i ->
    4 * (w * x) = h - f -> 4 * (w * y) = c - g -> 4 * (w * z) = d - b -> 4 * (x * y) = d + b -> 4 * (x * z) = c + g -> 4 * (y * z) = h + f ->
    unit (Qn w x y z) /\ entries_equal (to_rotation_matrix (Qn w x y z)) m).
  { intros w x y z. intros. assert (U : unit (Qn w x y z)) by (unfold unit; cbn; lra). split; [exact U|]. unfold to_rotation_matrix. rewrite normalized_unit_id by exact U. cbn [qw qx qy qz].
    entries; fold a b c d e f g h i; lra. }
  (* products of quotients by the same root *)
  assert (K : forall u n A B C p, 0 < u -> u * u = n -> A * B = n * C -> p = (A * (1 / (4 * (u / 2)))) * (B * (1 / (4 * (u / 2)))) -> 4 * p = C).
  { intros u n A B C p Lu En E ->. transitivity (A * B / (u * u)); [field; lra|]. rewrite E, <- En. field. lra. }
  assert (K0 : forall u n A p, 0 < u -> u * u = n -> p = (u / 2) * (A * (1 / (4 * (u / 2)))) -> 4 * p = A).
  { intros u n A p Lu En ->. field. lra. }
  assert (K2 : forall u n, u * u = n -> 4 * (u / 2 * (u / 2)) = n) by (intros u n E; rewrite <- E; field).
  unfold quat_of_matrix. fold a b c d e f g h i. pose proof qtol_pos as TP. pose proof qtol_small as TS.
  destruct (Rlt_dec qtol (a + e + i)) as [L|L].
  { destruct (root_ok (1 + (a + e + i))) as (-> & S & P); [lra|]. set (u := sqrt (1 + (a + e + i))) in *. eexists. split; [reflexivity|]. apply G.
    - rewrite (K2 u _ S). ring.
    - eapply (K u _ (h - f) (h - f)); [exact P|exact S| |reflexivity]. lra.
    - eapply (K u _ (c - g) (c - g)); [exact P|exact S| |reflexivity]. lra.
    - eapply (K u _ (d - b) (d - b)); [exact P|exact S| |reflexivity]. lra.
    - eapply (K0 u); [exact P|exact S|reflexivity].
    - eapply (K0 u); [exact P|exact S|reflexivity].
    - eapply (K0 u); [exact P|exact S|reflexivity].
    - eapply (K u _ (h - f) (c - g)); [exact P|exact S| |reflexivity]. lra.
    - eapply (K u _ (h - f) (d - b)); [exact P|exact S| |reflexivity]. lra.
    - eapply (K u _ (c - g) (d - b)); [exact P|exact S| |reflexivity]. lra. }
  destruct (Rlt_dec e a) as [L1|L1]; [destruct (Rlt_dec i a) as [L2|L2]|].
  { destruct (root_ok (1 + a - e - i)) as (-> & S & P); [lra|]. set (u := sqrt (1 + a - e - i)) in *. eexists. split; [reflexivity|]. apply G.
    - eapply (K u _ (h - f) (h - f)); [exact P|exact S| |reflexivity]. lra.
    - rewrite (K2 u _ S). ring.
    - eapply (K u _ (d + b) (d + b)); [exact P|exact S| |reflexivity]. lra.
    - eapply (K u _ (c + g) (c + g)); [exact P|exact S| |reflexivity]. lra.
    - rewrite (Rmult_comm (_ * _)). eapply (K0 u); [exact P|exact S|reflexivity].
    - eapply (K u _ (h - f) (d + b)); [exact P|exact S| |reflexivity]. lra.
    - eapply (K u _ (h - f) (c + g)); [exact P|exact S| |reflexivity]. lra.
    - eapply (K0 u); [exact P|exact S|reflexivity].
    - eapply (K0 u); [exact P|exact S|reflexivity].
    - eapply (K u _ (d + b) (c + g)); [exact P|exact S| |reflexivity]. lra. }
  all: destruct (Rlt_dec i e) as [L3|L3].
  1: exfalso; lra.
  2: { destruct (root_ok (1 - a + e - i)) as (-> & S & P); [lra|]. set (u := sqrt (1 - a + e - i)) in *. eexists. split; [reflexivity|]. apply G.
    - eapply (K u _ (c - g) (c - g)); [exact P|exact S| |reflexivity]. lra.
    - eapply (K u _ (b + d) (b + d)); [exact P|exact S| |reflexivity]. lra.
    - rewrite (K2 u _ S). ring.
    - eapply (K u _ (f + h) (f + h)); [exact P|exact S| |reflexivity]. lra.
    - eapply (K u _ (c - g) (b + d)); [exact P|exact S| |reflexivity]. lra.
    - rewrite (Rmult_comm (_ * _)). eapply (K0 u); [exact P|exact S|reflexivity].
    - eapply (K u _ (c - g) (f + h)); [exact P|exact S| |reflexivity]. lra.
    - rewrite (Rmult_comm (_ * _)), (Rplus_comm d b). eapply (K0 u); [exact P|exact S|reflexivity].
    - eapply (K u _ (b + d) (f + h)); [exact P|exact S| |reflexivity]. lra.
    - rewrite (Rplus_comm h f). eapply (K0 u); [exact P|exact S|reflexivity]. }
  all: destruct (root_ok (1 - a - e + i)) as (-> & S & P); [lra|]; set (u := sqrt (1 - a - e + i)) in *; eexists; (split; [reflexivity|]); apply G.
  all: try (rewrite (K2 u _ S); ring).
  all: try (eapply (K0 u); [exact P|exact S|reflexivity]).
  all: try (rewrite (Rmult_comm (_ * _)); eapply (K0 u); [exact P|exact S|reflexivity]).
  all: try (rewrite (Rmult_comm (_ * _)), (Rplus_comm h f); eapply (K0 u); [exact P|exact S|reflexivity]).
  all: eapply (K u); [exact P|exact S| |reflexivity]; lra.
Qed.
Print Assumptions quaternion_of_rotation.
