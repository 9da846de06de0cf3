(** Matrices: determinants, inverses and products, for every size. *)
From Coq Require Import Reals Arith List Lia Lra.
From Verif Require Import Base Matrix_Model Matrix_Spec Matrix_Proofs.
Import ListNotations.
Local Open Scope R_scope.

Lemma total_sum : forall n f, total n f = sum n f.
Proof.
  intros n f. unfold total. assert (H : forall n a f, fold_right Rplus 0 (map f (seq a n)) = sum n (fun i => f (a + i)%nat)).
  { clear. induction n as [|n IH]; intros a f; [reflexivity|]. rewrite sum_first. cbn [seq map fold_right]. rewrite IH, Nat.add_0_r. f_equal. apply sum_ext. intros i _. f_equal. lia. }
  rewrite H. reflexivity.
Qed.
Lemma delta_identity : forall i j, delta i j = identity i j.
Proof. intros i j. unfold delta, identity. destruct (Nat.eq_dec i j), (Nat.eqb_spec i j); congruence. Qed.
Lemma replace_with_row : forall i u m a b, replace_row i u m a b = with_row i u m a b.
Proof. intros. unfold replace_row, with_row. destruct (Nat.eq_dec a i), (Nat.eqb_spec a i); congruence. Qed.

(** The determinant is the volume form of its size ... *)
Theorem determinant_volume : forall n, (0 < n)%nat -> volume_form n (determinant n).
Proof.
  intros n L. assert (E : forall m, determinant n m = dt n m) by (intro; apply determinant_dt; exact L). constructor.
  - intros a b H. rewrite !E. apply dt_ext. exact H.
  - intros i u v m Li. rewrite !E. rewrite !(dt_ext n (replace_row _ _ _) (with_row i _ m) (fun a b _ _ => replace_with_row _ _ _ _ _)).
    apply (D_sum n (dt n)); [intros; apply dt_linear; auto|exact Li].
  - intros i k u m Li. rewrite !E. rewrite !(dt_ext n (replace_row _ _ _) (with_row i _ m) (fun a b _ _ => replace_with_row _ _ _ _ _)).
    rewrite (dt_linear n i (fun j => k * u j)), (dt_linear n i u) by exact Li. rewrite <- sum_scale. apply sum_ext. intros. ring.
  - intros m i k L1 L2 H. rewrite E. apply (dt_equal_rows n m i k); assumption.
  - rewrite E. rewrite (dt_ext n delta identity) by (intros; apply delta_identity). apply dt_identity.
Qed.
Print Assumptions determinant_volume.
(** ... and there is only one. *)
Lemma vf_sum : forall n D, volume_form n D -> forall i m, (i < n)%nat -> forall k u,
  D (replace_row i (fun j => sum k (fun l => u l * delta l j)) m) = sum k (fun l => u l * D (replace_row i (delta l) m)).
Proof.
  intros n D V i m L. induction k as [|k IH]; intro u; cbn [sum].
  - pose proof (vf_scale n D V i 0 (fun _ => 0) m L) as X. rewrite (vf_entries n D V _ (replace_row i (fun _ => 0 * 0) m)); [rewrite X; ring|].
    intros a b _ _. unfold replace_row. destruct (Nat.eq_dec a i); [ring|reflexivity].
  - rewrite (vf_add n D V i (fun j => sum k (fun l => u l * delta l j)) (fun j => u k * delta k j)) by exact L. rewrite IH. f_equal. apply (vf_scale n D V i (u k) (delta k) m L).
Qed.
Theorem volume_form_unique : forall n D m, (0 < n)%nat -> volume_form n D -> D m = determinant n m.
Proof.
  intros n D m L V. rewrite determinant_dt by exact L. rewrite (unique_form n D).
  - rewrite (vf_entries n D V identity delta) by (intros i j _ _; symmetry; apply delta_identity). rewrite (vf_one n D V). ring.
  - apply (vf_entries n D V).
  - intros i u w Li. rewrite (vf_entries n D V (with_row i u w) (replace_row i (fun j => sum n (fun l => u l * delta l j)) w)).
    + rewrite (vf_sum n D V i w Li). apply sum_ext. intros j Lj. f_equal. apply (vf_entries n D V). intros a b _ _. rewrite replace_with_row. unfold with_row. destruct (Nat.eqb a i); [|reflexivity].
      rewrite delta_identity. reflexivity.
    + intros a b _ Lb. rewrite replace_with_row. unfold with_row. destruct (Nat.eqb a i); [|reflexivity]. rewrite (sum_one _ _ b Lb); [rewrite delta_identity; unfold identity; rewrite Nat.eqb_refl; ring|].
      intros l _ N. rewrite delta_identity. unfold identity. replace (l =? b)%nat with false by (symmetry; apply Nat.eqb_neq; exact N). ring.
  - apply (vf_equal n D V).
Qed.
Print Assumptions volume_form_unique.

(** Determinants of products and transposes. *)
Theorem determinant_product : forall n a b, (0 < n)%nat -> determinant n (mul n a b) = determinant n a * determinant n b.
Proof. intros n a b L. rewrite !determinant_dt by exact L. apply dt_mul. Qed.
Print Assumptions determinant_product.
Theorem determinant_transposed : forall n m, (0 < n)%nat -> determinant n (transpose m) = determinant n m.
Proof. intros n m L. rewrite !determinant_dt by exact L. apply dt_transpose. Qed.
Print Assumptions determinant_transposed.
(** The product is the composition of the maps. *)
Theorem product_composes : forall n a b v i, (i < n)%nat -> mul_vec n (mul n a b) v i = mul_vec n a (mul_vec n b v) i.
Proof.
  intros n a b v i L. unfold mul_vec, mul. transitivity (sum n (fun k => sum n (fun l => a i l * b l k * v k))).
  - apply sum_ext. intros k Lk. rewrite Rmult_comm, <- sum_scale. apply sum_ext. intros. ring.
  - rewrite sum_swap. apply sum_ext. intros l Ll. rewrite <- sum_scale. apply sum_ext. intros. ring.
Qed.
Print Assumptions product_composes.

(** The adjoint times the matrix, either way, is the determinant times the identity. *)
Lemma adjoint_right : forall n m i j, (1 < n)%nat -> (i < n)%nat -> (j < n)%nat -> sum n (fun k => m i k * adjoint n m k j) = determinant n m * identity i j.
Proof.
  intros n m i j L Li Lj. destruct n as [|n]; [lia|]. rewrite determinant_dt by lia. unfold adjoint, transpose, cofactor. replace (S n - 1)%nat with n by lia.
  rewrite (sum_ext _ _ (fun k => m i k * (sgn (j + k) * dt n (reduce m j k)))) by (intros k Lk; rewrite determinant_dt by lia; reflexivity).
  rewrite (row_cofactors n m i j Li Lj). unfold identity. destruct (Nat.eqb i j); ring.
Qed.
Lemma adjoint_transpose : forall n m i j, (1 < n)%nat -> adjoint n (transpose m) i j = adjoint n m j i.
Proof.
  intros n m i j L. unfold adjoint, cofactor. unfold transpose at 1 3. change (reduce (transpose m) j i) with (transpose (reduce m i j)). rewrite determinant_transposed by lia. rewrite Nat.add_comm. reflexivity.
Qed.
Lemma adjoint_left : forall n m i j, (1 < n)%nat -> (i < n)%nat -> (j < n)%nat -> sum n (fun k => adjoint n m i k * m k j) = determinant n m * identity i j.
Proof.
  intros n m i j L Li Lj. rewrite <- (determinant_transposed n m) by lia. replace (identity i j) with (identity j i) by (unfold identity; rewrite Nat.eqb_sym; reflexivity).
  rewrite <- (adjoint_right n (transpose m) j i L Lj Li). apply sum_ext. intros k Lk. rewrite adjoint_transpose by exact L. unfold transpose. ring.
Qed.
(** inverse() is a two-sided inverse. *)
Theorem inverse_undoes : forall n m w, (1 < n)%nat -> inverse n m = Ok w -> undoes n m w /\ undoes n w m.
Proof.
  intros n m w L E. unfold inverse in E. destruct (Rlt_dec (Rabs (determinant n m)) mtol) as [|N]; [discriminate|]. injection E as <-.
  assert (Z : determinant n m <> 0). { intro Z. rewrite Z, Rabs_R0 in N. apply N. unfold mtol. apply Rdiv_lt_0_compat; [lra|]. apply pow_lt. lra. }
  split; intros i j Li Lj; rewrite total_sum, delta_identity; unfold scale.
  - rewrite (sum_ext _ _ (fun k => (1 / determinant n m) * (m i k * adjoint n m k j))) by (intros; ring). rewrite sum_scale, adjoint_right by assumption. field. exact Z.
  - rewrite (sum_ext _ _ (fun k => (1 / determinant n m) * (adjoint n m i k * m k j))) by (intros; ring). rewrite sum_scale, adjoint_left by assumption. field. exact Z.
Qed.
Print Assumptions inverse_undoes.
(** It is the only one, and it solves linear systems. *)
Theorem inverse_only : forall n m w w', (1 < n)%nat -> inverse n m = Ok w -> undoes n w' m \/ undoes n m w' -> same_entries n w w'.
Proof.
  assert (G : forall n m a b, undoes n a m -> undoes n m b -> same_entries n a b).
  { intros n m a b A B i j Li Lj. transitivity (sum n (fun k => sum n (fun l => a i l * m l k * b k j))).
    - rewrite sum_swap. rewrite (sum_ext _ _ (fun l => a i l * delta l j)).
      + rewrite (sum_one _ _ j Lj); [rewrite delta_identity; unfold identity; rewrite Nat.eqb_refl; ring|]. intros l Ll Nl. rewrite delta_identity. unfold identity. replace (l =? j)%nat with false by (symmetry; apply Nat.eqb_neq; exact Nl). ring.
      + intros l Ll. rewrite <- (B l j Ll Lj), total_sum, <- sum_scale. apply sum_ext. intros. ring.
    - rewrite (sum_ext _ _ (fun k => delta i k * b k j)).
      + rewrite (sum_one _ _ i Li); [rewrite delta_identity; unfold identity; rewrite Nat.eqb_refl; ring|]. intros l Ll Nl. rewrite delta_identity. unfold identity. replace (i =? l)%nat with false by (symmetry; apply Nat.eqb_neq; auto). ring.
      + intros k Lk. rewrite <- (A i k Li Lk), total_sum. rewrite Rmult_comm, <- sum_scale. apply sum_ext. intros. ring. }
  intros n m w w' L E O. destruct (inverse_undoes n m w L E) as (R1 & R2). destruct O as [O|O].
  - intros i j Li Lj. symmetry. revert i j Li Lj. exact (G n m w' w O R1).
  - exact (G n m w w' R2 O).
Qed.
Print Assumptions inverse_only.
Theorem inverse_solves : forall n m w v i, (1 < n)%nat -> inverse n m = Ok w -> (i < n)%nat -> mul_vec n m (mul_vec n w v) i = v i /\ mul_vec n w (mul_vec n m v) i = v i.
Proof.
  intros n m w v i L E Li. destruct (inverse_undoes n m w L E) as (R1 & R2). rewrite <- !product_composes by exact Li.
  assert (G : forall a b, undoes n a b -> mul_vec n (mul n a b) v i = v i).
  { intros a b U. unfold mul_vec. rewrite (sum_one _ _ i Li).
    - unfold mul. rewrite <- total_sum, (U i i Li Li), delta_identity. unfold identity. rewrite Nat.eqb_refl. ring.
    - intros k Lk Nk. unfold mul. rewrite <- total_sum, (U i k Li Lk), delta_identity. unfold identity. replace (i =? k)%nat with false by (symmetry; apply Nat.eqb_neq; auto). ring. }
  split; apply G; assumption.
Qed.
Print Assumptions inverse_solves.
(** inverse() throws exactly when the volume form is below the tolerance in absolute value; so
    for every matrix without an inverse ... *)
Theorem inverse_throws_iff : forall n m D, (1 < n)%nat -> volume_form n D ->
  (inverse n m = Throw <-> Rabs (D m) < / 1000000000000000) /\ (forall w, inverse n m = Ok w -> D m * D w = 1).
Proof.
  intros n m D L V. rewrite (volume_form_unique n D m ltac:(lia) V). split.
  - unfold inverse. replace (/ 1000000000000000) with mtol by (unfold mtol; cbn; lra). destruct (Rlt_dec (Rabs (determinant n m)) mtol); split; intro; auto; [discriminate|contradiction].
  - intros w E. rewrite (volume_form_unique n D w ltac:(lia) V). rewrite <- determinant_product by lia.
    destruct (inverse_undoes n m w L E) as (R1 & _). rewrite <- (vf_one n _ (determinant_volume n ltac:(lia))). apply (vf_entries n _ (determinant_volume n ltac:(lia))).
    intros i j Li Lj. unfold mul. rewrite <- total_sum. apply R1; assumption.
Qed.
Print Assumptions inverse_throws_iff.
Theorem no_inverse_throws : forall n m, (1 < n)%nat -> ~ (exists w, undoes n m w) -> inverse n m = Throw /\ is_singular n m = true.
Proof.
  intros n m L N. unfold inverse, is_singular. destruct (Rlt_dec (Rabs (determinant n m)) mtol) as [|X]; [auto|]. exfalso. apply N.
  exists (scale (1 / determinant n m) (adjoint n m)). refine (proj1 (inverse_undoes n m _ L _)). unfold inverse. destruct (Rlt_dec (Rabs (determinant n m)) mtol); [contradiction|reflexivity].
Qed.
Print Assumptions no_inverse_throws.
(** ... but not only for those: a multiple of the identity is refused. *)
Definition small : mat := scale (1 / 10000) identity.
Theorem invertible_matrix_refuted : exists m w, undoes 4 m w /\ undoes 4 w m /\ inverse 4 m = Throw.
Proof.
  exists small, (scale 10000 identity). assert (U : forall a b, a * b = 1 -> undoes 4 (scale a identity) (scale b identity)).
  { intros a b E i j Li Lj. rewrite total_sum, delta_identity. unfold scale. rewrite (sum_one _ _ i Li).
    - unfold identity. rewrite Nat.eqb_refl. destruct (Nat.eqb i j); [transitivity (a * b); [ring|exact E]|ring].
    - intros k Lk Nk. unfold identity. replace (i =? k)%nat with false by (symmetry; apply Nat.eqb_neq; auto). ring. }
  split; [apply U; lra|]. split; [apply U; lra|]. unfold inverse. destruct (Rlt_dec (Rabs (determinant 4 small)) mtol) as [|N]; [reflexivity|]. exfalso. apply N.
  unfold small, scale, identity, determinant, sum, reduce, skip, sgn, mtol. cbn -[Rmult Rplus Rminus Ropp IZR Rdiv]. unfold sum. cbn -[Rmult Rplus Rminus Ropp IZR Rdiv]. rewrite Rabs_right; lra.
Qed.
Print Assumptions invertible_matrix_refuted.

(** A 3 x 3 matrix of determinant 1 and its inverse. *)
Definition ex_m : mat := fun i j => match i, j with O, O => 1 | O, 1%nat => 2 | O, _ => 3 | 1%nat, O => 0 | 1%nat, 1%nat => 1 | 1%nat, _ => 4 | _, O => 5 | _, 1%nat => 6 | _, _ => 0 end.
Example determinant_ex : determinant 3 ex_m = 1.
Proof. unfold determinant, ex_m, sum, reduce, skip, sgn. cbn -[Rmult Rplus Rminus Ropp IZR]. lra. Qed.
Example inverse_ex : exists w, inverse 3 ex_m = Ok w /\ w O O = -24 /\ w 1%nat O = 20 /\ w 2%nat O = -5.
Proof.
  unfold inverse. destruct (Rlt_dec (Rabs (determinant 3 ex_m)) mtol) as [X|N].
  - exfalso. rewrite determinant_ex, Rabs_R1 in X. unfold mtol in X. cbn in X. lra.
  - eexists. split; [reflexivity|]. unfold scale. rewrite determinant_ex. unfold adjoint, transpose, cofactor, determinant, ex_m, reduce, skip, sgn. cbn -[Rmult Rplus Rminus Ropp IZR Rdiv]. repeat split; lra.
Qed.
Example product_ex : mul 2 (fun i j => INR (i + j)) (fun i j => INR (i * j)) 1%nat 1%nat = 2 /\ determinant 2 (fun i j => INR (i + j)) = -1.
Proof. unfold mul, sum, determinant. cbn. lra. Qed.
Example singular_ex : inverse 2 (fun i j => 1) = Throw.
Proof. unfold inverse. destruct (Rlt_dec (Rabs (determinant 2 (fun _ _ => 1))) mtol) as [|N]; [reflexivity|]. exfalso. apply N. unfold determinant, mtol. rewrite Rabs_right; cbn; lra. Qed.
