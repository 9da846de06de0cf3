(** Lemmas for boxes. *)
From Coq Require Import Reals List Arith Lia Lra Psatz Bool.
From Verif Require Import Base Matrix_Model Matrix_Spec Matrix_Proofs Matrix_Props Rotation_Model Rotation_Spec Rotation_Proofs RollPitchYaw_Props Box_Model Box_Spec.
Import ListNotations.
Local Open Scope R_scope.

Lemma Rleb_iff : forall a b, Rleb a b = true <-> a <= b.
Proof. intros a b. unfold Rleb. destruct (Rle_dec a b); split; intro; auto; discriminate || contradiction. Qed.
Lemma not_above_iff : forall a b, not_above a b = true <-> a <= b.
Proof. intros a b. unfold not_above. destruct (Rlt_dec b a); split; intro; auto; try discriminate; lra. Qed.

(** The transposed matrix is the inverse. *)
Definition flip (o : rpy) : mat := fun i j => to_matrix o j i.
Lemma columns_orthonormal : forall o v, mat_vec (flip o) (mat_vec (to_matrix o) v) = v.
Proof.
  intros [r p y] [a b c]. unfold flip, to_matrix. cbn [roll pitch yaw]. pose proof (sin2_cos2 r) as Er. pose proof (sin2_cos2 p) as Ep. pose proof (sin2_cos2 y) as Ey. unfold Rsqr in *.
  assert (Fr : cos r * cos r = 1 - sin r * sin r) by lra. assert (Fp : cos p * cos p = 1 - sin p * sin p) by lra. assert (Fy : cos y * cos y = 1 - sin y * sin y) by lra.
  apply vec_eq; unfold mat_vec; cbn; ring [Fr Fp Fy].
Qed.
Lemma rows_orthonormal : forall o v, mat_vec (to_matrix o) (mat_vec (flip o) v) = v.
Proof.
  intros [r p y] [a b c]. unfold flip, to_matrix. cbn [roll pitch yaw]. pose proof (sin2_cos2 r) as Er. pose proof (sin2_cos2 p) as Ep. pose proof (sin2_cos2 y) as Ey. unfold Rsqr in *.
  assert (Fr : cos r * cos r = 1 - sin r * sin r) by lra. assert (Fp : cos p * cos p = 1 - sin p * sin p) by lra. assert (Fy : cos y * cos y = 1 - sin y * sin y) by lra.
  apply vec_eq; unfold mat_vec; cbn; ring [Fr Fp Fy].
Qed.
Lemma rows_dot : forall o i j, (i < 3)%nat -> (j < 3)%nat -> let m := to_matrix o in
  m i 0%nat * m j 0%nat + m i 1%nat * m j 1%nat + m i 2%nat * m j 2%nat = if Nat.eq_dec i j then 1 else 0.
Proof.
  intros [r p y] i j Li Lj. cbv zeta. unfold to_matrix. cbn [roll pitch yaw]. pose proof (sin2_cos2 r) as Er. pose proof (sin2_cos2 p) as Ep. pose proof (sin2_cos2 y) as Ey. unfold Rsqr in *.
  assert (Fr : cos r * cos r = 1 - sin r * sin r) by lra. assert (Fp : cos p * cos p = 1 - sin p * sin p) by lra. assert (Fy : cos y * cos y = 1 - sin y * sin y) by lra.
  destruct i as [|[|[|i]]]; destruct j as [|[|[|j]]]; try lia; cbn; ring [Fr Fp Fy].
Qed.
Lemma inverse_flip : forall o, exists w, inverse 3 (to_matrix o) = Ok w /\ entries_equal w (flip o).
Proof.
  intro o. destruct (inverse 3 (to_matrix o)) as [w| |] eqn:E.
  - exists w. split; [reflexivity|]. assert (G : same_entries 3 w (flip o)).
    { apply (inverse_only 3 (to_matrix o) w (flip o) ltac:(lia) E). right. intros i j Li Lj. unfold total, flip, delta. cbn. rewrite <- (rows_dot o i j Li Lj). ring. }
    exact G.
  - exfalso. apply (inverse_throws_iff 3 (to_matrix o) (determinant 3) ltac:(lia) (determinant_volume 3 ltac:(lia))) in E.
    assert (D : determinant 3 (to_matrix o) * determinant 3 (to_matrix o) = 1).
    { rewrite <- (determinant_transposed 3 (to_matrix o)) at 2 by lia. rewrite <- determinant_product by lia.
      pose proof (determinant_volume 3 ltac:(lia)) as V. rewrite (vf_entries 3 _ V (mul 3 (to_matrix o) (transpose (to_matrix o))) delta); [apply (vf_one 3 _ V)|].
      intros i j Li Lj. unfold mul, transpose, delta. cbn. rewrite <- (rows_dot o i j Li Lj). ring. }
    set (d := determinant 3 (to_matrix o)) in *. unfold Rabs in E. destruct (Rcase_abs d); nra.
  - exfalso. unfold inverse in E. destruct (Rlt_dec (Rabs (determinant 3 (to_matrix o))) mtol); discriminate.
Qed.
Lemma mat_vec_entries : forall m w v, entries_equal m w -> mat_vec m v = mat_vec w v.
Proof. intros m w v E. unfold mat_vec. rewrite !E by lia. reflexivity. Qed.
Lemma unmap_flip : forall o v, rpy_unmap o v = mat_vec (flip o) v.
Proof.
  intros [r p y] [a b c]. unfold rpy_unmap, flip, to_matrix, linear, mat_vec, rot_x, rot_y, rot_z. cbn. rewrite !sin_neg, !cos_neg. apply vec_eq; cbn; ring.
Qed.
Lemma map_matrix : forall o v, rpy_map o v = mat_vec (to_matrix o) v.
Proof. intros [r p y] [a b c]. unfold rpy_map, to_matrix, linear, mat_vec, rot_x, rot_y, rot_z. cbn. apply vec_eq; cbn; ring. Qed.
Lemma at_unmap : forall c o u1 u2 u3, at_ c (turned (rpy_unmap o)) u1 u2 u3 = vadd (mat_vec (flip o) (V3 u1 u2 u3)) c.
Proof. intros c o u1 u2 u3. unfold at_, turned. cbn [f1 f2 f3]. rewrite !unmap_flip. unfold vadd, mat_vec. cbn [vx vy vz]. apply vec_eq; cbn [vx vy vz]; ring. Qed.
Lemma vsub_vadd : forall a b, vsub (vadd a b) b = a.
Proof. intros [a b c] [d e f]. unfold vsub, vadd. cbn. f_equal; ring. Qed.
Lemma vadd_vsub : forall a b, vadd (vsub a b) b = a.
Proof. intros [a b c] [d e f]. unfold vsub, vadd. cbn. f_equal; ring. Qed.
Lemma vertices_value : forall b, get_vertices b = Ok (map (fun v => vadd (mat_vec (flip (b_orientation b)) v) (b_position b)) (corners (half b))).
Proof.
  intro b. unfold get_vertices. destruct (inverse_flip (b_orientation b)) as (w & -> & E). cbn [omap]. f_equal. apply map_ext. intro v. f_equal. apply mat_vec_entries. exact E.
Qed.
