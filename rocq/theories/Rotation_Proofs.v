(** Lemmas for quaternions. *)
From Coq Require Import Reals Arith Lia Lra Psatz Bool.
From Verif Require Import Base Matrix_Model Rotation_Model Rotation_Spec.
Local Open Scope R_scope.

Lemma qtol_pos : 0 < qtol.
Proof. unfold qtol. cbn. lra. Qed.
Lemma qtol_small : qtol < 1 / 1000.
Proof. unfold qtol. cbn. lra. Qed.
Lemma vec_eq : forall a b, vx a = vx b -> vy a = vy b -> vz a = vz b -> a = b.
Proof. intros [x y z] [x' y' z']. cbn. intros -> -> ->. reflexivity. Qed.
Lemma quat_eq : forall a b, qw a = qw b -> qx a = qx b -> qy a = qy b -> qz a = qz b -> a = b.
Proof. intros [w x y z] [w' x' y' z']. cbn. intros -> -> -> ->. reflexivity. Qed.
Ltac entries := let i := fresh "i" in let j := fresh "j" in intros i j ? ?;
  destruct i as [|[|[|i]]]; destruct j as [|[|[|j]]]; try lia; cbn [mat3].

Lemma sqnorm_unit : forall q, squared_norm q = 1 <-> unit q.
Proof. intro q. unfold squared_norm, unit. split; intro H; lra. Qed.
Lemma sqnorm_nonneg : forall q, 0 <= squared_norm q.
Proof. intro q. unfold squared_norm. nra. Qed.
Lemma qnorm_unit : forall q, unit q -> qnorm q = 1.
Proof. intros q U. unfold qnorm. rewrite (proj2 (sqnorm_unit q) U). apply sqrt_1. Qed.
Lemma normalized_unit_id : forall q, unit q -> qnormalized q = q.
Proof.
  intros q U. unfold qnormalized. rewrite (qnorm_unit q U). destruct (Rlt_dec 1 qtol) as [L|]; [pose proof qtol_small; lra|].
  apply quat_eq; cbn; field.
Qed.
Lemma normalized_unit : forall q, unit (qnormalized q).
Proof.
  intro q. unfold qnormalized. destruct (Rlt_dec (qnorm q) qtol) as [L|N]; [unfold unit, qidentity; cbn; ring|]. pose proof qtol_pos.
  assert (Z : qnorm q <> 0) by lra. assert (E : qnorm q * qnorm q = squared_norm q) by (unfold qnorm; apply sqrt_sqrt, sqnorm_nonneg).
  unfold unit. cbn. unfold squared_norm in E. field_simplify; [|exact Z]. replace (qnorm q ^ 2) with (qnorm q * qnorm q) by ring.
  rewrite E. field. rewrite <- E. nra.
Qed.
(** w^2 from the unit condition. *)
Lemma unit_w : forall w x y z, unit (Qn w x y z) -> w * w = 1 - x * x - y * y - z * z.
Proof. intros w x y z U. unfold unit in U. cbn in U. lra. Qed.

Lemma transform_inner : forall q a b, unit q -> inner (transform_vector q a) (transform_vector q b) = inner a b.
Proof.
  intros [w x y z] [a1 a2 a3] [b1 b2 b3] U. pose proof (unit_w _ _ _ _ U) as E. unfold inner, transform_vector, vadd, vscale, vcross, qvec. cbn. ring [E].
Qed.
(** The same without the unit condition: q v q*. *)
Definition sandwich (q : quat) (v : vec3) : vec3 :=
  let k := qw q * qw q - (qx q * qx q + qy q * qy q + qz q * qz q) in
  let d := 2 * (qx q * vx v + qy q * vy v + qz q * vz v) in
  let t := 2 * qw q in
  V3 (k * vx v + d * qx q + t * (qy q * vz v - qz q * vy v))
     (k * vy v + d * qy q + t * (qz q * vx v - qx q * vz v))
     (k * vz v + d * qz q + t * (qx q * vy v - qy q * vx v)).
Lemma transform_sandwich : forall q v, unit q -> transform_vector q v = sandwich q v.
Proof.
  intros [w x y z] [a b c] U. pose proof (unit_w _ _ _ _ U) as E. apply vec_eq; unfold transform_vector, sandwich, vadd, vscale, vcross, qvec; cbn; rewrite E; ring.
Qed.
Lemma sandwich_composed : forall p q v, sandwich (qmul p q) v = sandwich p (sandwich q v).
Proof. intros [w x y z] [w' x' y' z'] [a b c]. apply vec_eq; unfold sandwich, qmul; cbn; ring. Qed.
Lemma unit_mul : forall p q, unit p -> unit q -> unit (qmul p q).
Proof.
  intros p q U U'. apply sqnorm_unit. transitivity (squared_norm p * squared_norm q); [destruct p, q; unfold squared_norm, qmul; cbn; ring|].
  rewrite (proj2 (sqnorm_unit p) U), (proj2 (sqnorm_unit q) U'). ring.
Qed.
Lemma transform_composed : forall p q v, unit p -> unit q -> transform_vector (qmul p q) v = transform_vector p (transform_vector q v).
Proof. intros p q v U U'. rewrite (transform_sandwich (qmul p q)) by (apply unit_mul; assumption). rewrite sandwich_composed, !transform_sandwich by assumption. reflexivity. Qed.
Lemma transform_volume : forall q a b c, unit q -> volume (transform_vector q a) (transform_vector q b) (transform_vector q c) = volume a b c.
Proof.
  intros [w x y z] a b c U. pose proof (unit_w _ _ _ _ U) as E.
  set (m00 := 1 - 2 * (y * y + z * z)). set (m01 := 2 * (x * y - w * z)). set (m02 := 2 * (x * z + w * y)).
  set (m10 := 2 * (x * y + w * z)). set (m11 := 1 - 2 * (x * x + z * z)). set (m12 := 2 * (y * z - w * x)).
  set (m20 := 2 * (x * z - w * y)). set (m21 := 2 * (y * z + w * x)). set (m22 := 1 - 2 * (x * x + y * y)).
  assert (T : forall v, transform_vector (Qn w x y z) v = V3 (m00 * vx v + m01 * vy v + m02 * vz v) (m10 * vx v + m11 * vy v + m12 * vz v) (m20 * vx v + m21 * vy v + m22 * vz v)).
  { intros [v1 v2 v3]. apply vec_eq; unfold transform_vector, vadd, vscale, vcross, qvec, m00, m01, m02, m10, m11, m12, m20, m21, m22; cbn; ring [E]. }
  rewrite !T. assert (D : m00 * (m11 * m22 - m12 * m21) - m01 * (m10 * m22 - m12 * m20) + m02 * (m10 * m21 - m11 * m20) = 1).
  { unfold m00, m01, m02, m10, m11, m12, m20, m21, m22. ring [E]. }
  transitivity ((m00 * (m11 * m22 - m12 * m21) - m01 * (m10 * m22 - m12 * m20) + m02 * (m10 * m21 - m11 * m20)) * volume a b c); [|rewrite D; ring].
  unfold volume. cbn. ring.
Qed.
Lemma qmul_sqnorm : forall p q, squared_norm (qmul p q) = squared_norm p * squared_norm q.
Proof. intros [w x y z] [w' x' y' z']. unfold squared_norm, qmul. cbn. ring. Qed.
Lemma conjugate_unit : forall q, unit q -> unit (conjugate q).
Proof. intros [w x y z] U. unfold unit, conjugate in *. cbn in *. lra. Qed.
Lemma qinverse_unit : forall q, unit q -> qinverse q = conjugate q.
Proof.
  intros q U. unfold qinverse. rewrite (proj2 (sqnorm_unit q) U). destruct (Rlt_dec qtol 1) as [|N]; [|pose proof qtol_small; lra]. apply quat_eq; unfold conjugate; cbn; field.
Qed.
Lemma qmul_conjugate : forall q, unit q -> qmul q (conjugate q) = qidentity /\ qmul (conjugate q) q = qidentity.
Proof.
  intros [w x y z] U. pose proof (unit_w _ _ _ _ U) as E. split; apply quat_eq; unfold qmul, conjugate, qidentity; cbn; ring [E].
Qed.
Lemma identity_transform : forall v, transform_vector qidentity v = v.
Proof. intros [a b c]. apply vec_eq; unfold transform_vector, vadd, vscale, vcross, qvec, qidentity; cbn; ring. Qed.

(** The rotation matrix of a unit quaternion. *)
Lemma matrix_transform : forall q v, unit q -> linear (to_rotation_matrix q) v = transform_vector q v.
Proof.
  intros q v U. unfold to_rotation_matrix. rewrite (normalized_unit_id q U). destruct q as [w x y z], v as [a b c]. pose proof (unit_w _ _ _ _ U) as E.
  apply vec_eq; unfold linear, mat3, transform_vector, vadd, vscale, vcross, qvec; cbn; ring [E].
Qed.
Lemma matrix_normalized : forall q, to_rotation_matrix q = to_rotation_matrix (qnormalized q).
Proof. intro q. unfold to_rotation_matrix. rewrite (normalized_unit_id (qnormalized q) (normalized_unit q)). reflexivity. Qed.

(** Matrices of rotations: orthonormal rows, determinant one; their cofactors are their entries. *)
Section Entries.
Variables a b c d e f g h i : R.
Hypothesis R00 : a * a + b * b + c * c = 1.
Hypothesis R11 : d * d + e * e + f * f = 1.
Hypothesis R22 : g * g + h * h + i * i = 1.
Hypothesis R01 : a * d + b * e + c * f = 0.
Hypothesis R02 : a * g + b * h + c * i = 0.
Hypothesis R12 : d * g + e * h + f * i = 0.
Hypothesis DET : a * (e * i - f * h) - b * (d * i - f * g) + c * (d * h - e * g) = 1.
Lemma cof_a : a = e * i - f * h.
Proof.
  assert (X : (e * i - f * h) * (a * a + b * b + c * c) + (c * h - b * i) * (a * d + b * e + c * f) + (b * f - c * e) * (a * g + b * h + c * i)
            = (a * (e * i - f * h) - b * (d * i - f * g) + c * (d * h - e * g)) * a) by ring.
  rewrite R00, R01, R02, DET in X. lra.
Qed.
Lemma cof_b : b = f * g - d * i.
Proof.
  assert (X : (f * g - d * i) * (a * a + b * b + c * c) + (a * i - c * g) * (a * d + b * e + c * f) + (c * d - a * f) * (a * g + b * h + c * i)
            = (a * (e * i - f * h) - b * (d * i - f * g) + c * (d * h - e * g)) * b) by ring.
  rewrite R00, R01, R02, DET in X. lra.
Qed.
Lemma cof_c : c = d * h - e * g.
Proof.
  assert (X : (d * h - e * g) * (a * a + b * b + c * c) + (b * g - a * h) * (a * d + b * e + c * f) + (a * e - b * d) * (a * g + b * h + c * i)
            = (a * (e * i - f * h) - b * (d * i - f * g) + c * (d * h - e * g)) * c) by ring.
  rewrite R00, R01, R02, DET in X. lra.
Qed.
Lemma cof_d : d = c * h - b * i.
Proof.
  assert (X : (e * i - f * h) * (a * d + b * e + c * f) + (c * h - b * i) * (d * d + e * e + f * f) + (b * f - c * e) * (d * g + e * h + f * i)
            = (a * (e * i - f * h) - b * (d * i - f * g) + c * (d * h - e * g)) * d) by ring.
  rewrite R11, R01, R12, DET in X. lra.
Qed.
Lemma cof_e : e = a * i - c * g.
Proof.
  assert (X : (f * g - d * i) * (a * d + b * e + c * f) + (a * i - c * g) * (d * d + e * e + f * f) + (c * d - a * f) * (d * g + e * h + f * i)
            = (a * (e * i - f * h) - b * (d * i - f * g) + c * (d * h - e * g)) * e) by ring.
  rewrite R11, R01, R12, DET in X. lra.
Qed.
Lemma cof_f : f = b * g - a * h.
Proof.
  assert (X : (d * h - e * g) * (a * d + b * e + c * f) + (b * g - a * h) * (d * d + e * e + f * f) + (a * e - b * d) * (d * g + e * h + f * i)
            = (a * (e * i - f * h) - b * (d * i - f * g) + c * (d * h - e * g)) * f) by ring.
  rewrite R11, R01, R12, DET in X. lra.
Qed.
Lemma cof_g : g = b * f - c * e.
Proof.
  assert (X : (e * i - f * h) * (a * g + b * h + c * i) + (c * h - b * i) * (d * g + e * h + f * i) + (b * f - c * e) * (g * g + h * h + i * i)
            = (a * (e * i - f * h) - b * (d * i - f * g) + c * (d * h - e * g)) * g) by ring.
  rewrite R22, R02, R12, DET in X. lra.
Qed.
Lemma cof_h : h = c * d - a * f.
Proof.
  assert (X : (f * g - d * i) * (a * g + b * h + c * i) + (a * i - c * g) * (d * g + e * h + f * i) + (c * d - a * f) * (g * g + h * h + i * i)
            = (a * (e * i - f * h) - b * (d * i - f * g) + c * (d * h - e * g)) * h) by ring.
  rewrite R22, R02, R12, DET in X. lra.
Qed.
Lemma cof_i : i = a * e - b * d.
Proof.
  assert (X : (d * h - e * g) * (a * g + b * h + c * i) + (b * g - a * h) * (d * g + e * h + f * i) + (a * e - b * d) * (g * g + h * h + i * i)
            = (a * (e * i - f * h) - b * (d * i - f * g) + c * (d * h - e * g)) * i) by ring.
  rewrite R22, R02, R12, DET in X. lra.
Qed.
(** Columns. *)
Lemma C00 : a * a + d * d + g * g = 1.
Proof. transitivity (a * (e * i - f * h) + d * (c * h - b * i) + g * (b * f - c * e)); [rewrite <- cof_a, <- cof_d, <- cof_g; reflexivity|rewrite <- DET; ring]. Qed.
Lemma C11 : b * b + e * e + h * h = 1.
Proof. transitivity (b * (f * g - d * i) + e * (a * i - c * g) + h * (c * d - a * f)); [rewrite <- cof_b, <- cof_e, <- cof_h; reflexivity|rewrite <- DET; ring]. Qed.
Lemma C22 : c * c + f * f + i * i = 1.
Proof. transitivity (c * (d * h - e * g) + f * (b * g - a * h) + i * (a * e - b * d)); [rewrite <- cof_c, <- cof_f, <- cof_i; reflexivity|rewrite <- DET; ring]. Qed.
Lemma C01 : a * b + d * e + g * h = 0.
Proof. transitivity (a * (f * g - d * i) + d * (a * i - c * g) + g * (c * d - a * f)); [rewrite <- cof_b, <- cof_e, <- cof_h; reflexivity|ring]. Qed.
Lemma C02 : a * c + d * f + g * i = 0.
Proof. transitivity (a * (d * h - e * g) + d * (b * g - a * h) + g * (a * e - b * d)); [rewrite <- cof_c, <- cof_f, <- cof_i; reflexivity|ring]. Qed.
Lemma C12 : b * c + e * f + h * i = 0.
Proof. transitivity (b * (d * h - e * g) + e * (b * g - a * h) + h * (a * e - b * d)); [rewrite <- cof_c, <- cof_f, <- cof_i; reflexivity|ring]. Qed.
(** With the squares W, X, Y, Z of twice the coefficients, all sixteen products. *)
Let W := 1 + a + e + i.
Let X := 1 + a - e - i.
Let Y := 1 - a + e - i.
Let Z := 1 - a - e + i.
Let wx := h - f.
Let wy := c - g.
Let wz := d - b.
Let xy := d + b.
Let xz := c + g.
Let yz := h + f.
Ltac go := unfold W, X, Y, Z, wx, wy, wz, xy, xz, yz;
  pose proof cof_a as ha; pose proof cof_b as hb; pose proof cof_c as hc; pose proof cof_d as hd; pose proof cof_e as he; pose proof cof_f as hf; pose proof cof_g as hg; pose proof cof_h as hh; pose proof cof_i as hi;
  pose proof C00; pose proof C11; pose proof C22; pose proof C01; pose proof C02; pose proof C12; ring_simplify; try lra.
Lemma p_wx : wx * wx = W * X. Proof. go. Qed.
Lemma p_wy : wy * wy = W * Y. Proof. go. Qed.
Lemma p_wz : wz * wz = W * Z. Proof. go. Qed.
Lemma p_xy : xy * xy = X * Y. Proof. go. Qed.
Lemma p_xz : xz * xz = X * Z. Proof. go. Qed.
Lemma p_yz : yz * yz = Y * Z. Proof. go. Qed.
Lemma p_wxwy : wx * wy = W * xy. Proof. go. Qed.
Lemma p_wxwz : wx * wz = W * xz. Proof. go. Qed.
Lemma p_wywz : wy * wz = W * yz. Proof. go. Qed.
Lemma p_wxxy : wx * xy = X * wy. Proof. go. Qed.
Lemma p_wxxz : wx * xz = X * wz. Proof. go. Qed.
Lemma p_xyxz : xy * xz = X * yz. Proof. go. Qed.
Lemma p_wyxy : wy * xy = Y * wx. Proof. go. Qed.
Lemma p_wyyz : wy * yz = Y * wz. Proof. go. Qed.
Lemma p_xyyz : xy * yz = Y * xz. Proof. go. Qed.
Lemma p_wzxz : wz * xz = Z * wx. Proof. go. Qed.
Lemma p_wzyz : wz * yz = Z * wy. Proof. go. Qed.
Lemma p_xzyz : xz * yz = Z * xy. Proof. go. Qed.
Lemma p_sum : W + X + Y + Z = 4. Proof. unfold W, X, Y, Z. ring. Qed.
End Entries.
