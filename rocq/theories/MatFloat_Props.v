(** C112: matrices of rounded doubles. *)
From Coq Require Import List Bool Arith ZArith Lia.
From Coq Require Import Floats.SpecFloat.
From Verif Require Import Base Binary64 Binary64_Round Binary64_Order Binary64_Ext Vectors_Model Vectors_Spec Vectors_Proofs MatFloat_Model MatFloat_Spec.
Import ListNotations.
Local Open Scope Z_scope.

Lemma nth_map_seq {A} (f : nat -> A) n i d : (i < n)%nat -> nth i (map f (seq 0 n)) d = f i.
Proof. intros L. rewrite (nth_indep _ d (f 0%nat)) by (rewrite map_length, seq_length; exact L). rewrite map_nth, seq_nth by exact L. reflexivity. Qed.
Lemma entry_map f n i j : (i < n)%nat -> (j < n)%nat -> entry (map (fun i => map (f i) (seq 0 n)) (seq 0 n)) i j = f i j.
Proof. intros I J. unfold entry. rewrite nth_map_seq by exact I. apply nth_map_seq, J. Qed.
Lemma square_map f n : square n (map (fun i => map (f i) (seq 0 n)) (seq 0 n)).
Proof. split; [rewrite map_length, seq_length; reflexivity|]. apply Forall_forall. intros r R. apply in_map_iff in R as (i & <- & _). rewrite map_length, seq_length. reflexivity. Qed.
Lemma col_nth m n i j : square n m -> (i < n)%nat -> nth i (mcol m j) fzero = entry m i j.
Proof. intros (L & F) I. unfold mcol, entry. rewrite (nth_indep _ fzero ((fun r : vector => nth j r fzero) [])) by (rewrite map_length, L; exact I). rewrite (map_nth (fun r : vector => nth j r fzero)). reflexivity. Qed.
Lemma row_length m n i : square n m -> (i < n)%nat -> List.length (nth i m []) = n.
Proof. intros (L & F) I. rewrite Forall_forall in F. apply F, nth_In. rewrite L. exact I. Qed.
Lemma matrix_ext n a b : square n a -> square n b -> (forall i j, (i < n)%nat -> (j < n)%nat -> entry a i j = entry b i j) -> a = b.
Proof.
  intros A B H. apply (nth_ext a b [] []); [rewrite (proj1 A), (proj1 B); reflexivity|]. intros i I. rewrite (proj1 A) in I. apply (nth_ext _ _ fzero fzero); [rewrite (row_length a n i A I), (row_length b n i B I); reflexivity|].
  intros j J. rewrite (row_length a n i A I) in J. exact (H i j I J).
Qed.
Lemma transpose_square n m : List.length m = n -> square n (mtranspose n m).
Proof. intros L. split; [unfold mtranspose; rewrite map_length, seq_length; reflexivity|]. apply Forall_forall. intros r R. apply in_map_iff in R as (j & <- & _). unfold mcol. rewrite map_length. exact L. Qed.
Lemma transpose_row n m i : (i < n)%nat -> mrow (mtranspose n m) i = mcol m i.
Proof. intros I. unfold mrow, mtranspose. apply nth_map_seq, I. Qed.
Lemma transpose_entry n m i j : square n m -> (i < n)%nat -> (j < n)%nat -> entry (mtranspose n m) i j = entry m j i.
Proof. intros S I J. unfold entry at 1. change (nth i (mtranspose n m) []) with (mrow (mtranspose n m) i). rewrite transpose_row by exact I. apply (col_nth m n j i S J). Qed.
Lemma transpose_col n m j : square n m -> (j < n)%nat -> mcol (mtranspose n m) j = mrow m j.
Proof.
  intros S J. apply (nth_ext _ _ fzero fzero); [unfold mcol, mtranspose; rewrite !map_length, seq_length; symmetry; apply (row_length m n j S J)|]. intros i I. unfold mcol in I. unfold mtranspose in I. rewrite !map_length, seq_length in I.
  rewrite (col_nth _ n i j (transpose_square n m (proj1 S)) I). apply (transpose_entry n m i j S I J).
Qed.
Lemma product_square n a b : square n (mmul n a b). Proof. apply (square_map (fun i j => dot (mrow a i) (mcol b j))). Qed.
Lemma product_entry n a b i j : (i < n)%nat -> (j < n)%nat -> entry (mmul n a b) i j = dot (mrow a i) (mcol b j).
Proof. intros I J. exact (entry_map (fun i j => dot (mrow a i) (mcol b j)) n i j I J). Qed.

(** transpose exchanges rows and columns, and undoes itself. *)
Theorem matrix_transpose : forall n m, square n m ->
  square n (mtranspose n m) /\ (forall i j, (i < n)%nat -> (j < n)%nat -> entry (mtranspose n m) i j = entry m j i) /\ mtranspose n (mtranspose n m) = m.
Proof.
  intros n m S. pose proof (transpose_square n m (proj1 S)) as T. split; [exact T|]. split; [intros i j; apply transpose_entry, S|].
  apply (matrix_ext n); [apply transpose_square, (proj1 T)|exact S|]. intros i j I J. rewrite (transpose_entry n _ i j T I J). apply (transpose_entry n m j i S J I).
Qed.
Print Assumptions matrix_transpose.

(** The transpose of a product is the product of the transposes in the other order, bit for bit, for all doubles. *)
Theorem matrix_product_transposed : forall n a b, square n a -> square n b -> mtranspose n (mmul n a b) = mmul n (mtranspose n b) (mtranspose n a).
Proof.
  intros n a b A B. apply (matrix_ext n); [apply transpose_square, (proj1 (product_square n a b))|apply product_square|]. intros i j I J.
  rewrite (transpose_entry n _ i j (product_square n a b) I J), !product_entry by assumption. rewrite (transpose_row n b i I), (transpose_col n a j A J). apply inner_comm.
Qed.
Print Assumptions matrix_product_transposed.

(** The columns of a product are the products with the columns, bit for bit. *)
Theorem matrix_product_columns : forall n a b j, (j < n)%nat -> mcol (mmul n a b) j = mvec n a (mcol b j).
Proof.
  intros n a b j J. apply (nth_ext _ _ fzero fzero); [unfold mcol at 1, mvec; rewrite !map_length, !seq_length; unfold mmul; rewrite map_length, seq_length; reflexivity|]. intros i I.
  unfold mcol at 1 in I. rewrite map_length, (proj1 (product_square n a b)) in I. rewrite (col_nth _ n i j (product_square n a b) I), (product_entry n a b i j I J). unfold mvec. rewrite nth_map_seq by exact I. apply inner_comm.
Qed.
Print Assumptions matrix_product_columns.

(** Sums commute bit for bit. *)
Theorem matrix_sums : forall a b, madd a b = madd b a.
Proof. induction a as [|x a IH]; intros [|y b]; try reflexivity. unfold madd in *. cbn [mzip]. unfold vadd at 1 3. rewrite transform_comm, IH. reflexivity. Qed.
Print Assumptions matrix_sums.

(** Products with the identity keep all values of a finite matrix, on either side; the product with a unit vector is a
    column. *)
Lemma row_finite n m i : square n m -> all_finite m -> (i < n)%nat -> Forall is_double (mrow m i).
Proof. intros S F I. unfold all_finite in F. rewrite Forall_forall in F. apply F, nth_In. destruct S as (L & _). exact (eq_ind_r (fun k => (i < k)%nat) I L). Qed.
Lemma col_finite n m j : square n m -> all_finite m -> (j < n)%nat -> Forall is_double (mcol m j).
Proof.
  intros (L & S) F J. apply Forall_forall. intros x X. apply in_map_iff in X as (r & <- & R). unfold all_finite in F. rewrite Forall_forall in F, S. pose proof (F r R) as G. rewrite Forall_forall in G. apply G, nth_In. rewrite (S r R). exact J.
Qed.
Lemma identity_unit n i : (i < n)%nat -> mrow (Identity n) i = unit_vector i (n - S i) /\ mcol (Identity n) i = unit_vector i (n - S i).
Proof.
  intros I. assert (U : List.length (unit_vector i (n - S i)) = n) by (unfold unit_vector; rewrite app_length; cbn [List.length]; rewrite !repeat_length; lia).
  assert (V : forall j, (j < n)%nat -> nth j (unit_vector i (n - S i)) fzero = if (i =? j)%nat then fint 1 else fzero).
  { intros j J. unfold unit_vector. destruct (Nat.eqb_spec i j) as [<-|N].
    - rewrite app_nth2; rewrite repeat_length; [|lia]. rewrite Nat.sub_diag. reflexivity.
    - destruct (le_lt_dec i j) as [L|L]; [|rewrite app_nth1 by (rewrite repeat_length; exact L); apply nth_repeat]. rewrite app_nth2 by (rewrite repeat_length; exact L). rewrite repeat_length. replace (j - i)%nat with (S (j - i - 1)) by lia. cbn [nth]. apply nth_repeat. }
  pose proof (square_map (fun i j => if (i =? j)%nat then fint 1 else fzero) n) as S. change (square n (Identity n)) in S. split.
  - apply (nth_ext _ _ fzero fzero); [rewrite U; apply (row_length _ n i S I)|]. intros j J. unfold mrow in J. rewrite (row_length _ n i S I) in J. rewrite (V j J). exact (entry_map (fun i j => if (i =? j)%nat then fint 1 else fzero) n i j I J).
  - apply (nth_ext _ _ fzero fzero); [rewrite U; unfold mcol; rewrite map_length; apply S|]. intros j J. unfold mcol in J. rewrite map_length, (proj1 S) in J. rewrite (V j J), (col_nth _ n j i S J).
    rewrite Nat.eqb_sym. exact (entry_map (fun i j => if (i =? j)%nat then fint 1 else fzero) n j i J I).
Qed.
Theorem matrix_identity : forall n m i j, square n m -> all_finite m -> (i < n)%nat -> (j < n)%nat ->
  val (entry (mmul n m (Identity n)) i j) = val (entry m i j) /\ val (entry (mmul n (Identity n) m) i j) = val (entry m i j) /\
  val (nth i (mvec n m (unit_vector j (n - S j))) fzero) = val (entry m i j) /\
  is_double (entry (mmul n m (Identity n)) i j) /\ is_double (entry (mmul n (Identity n) m) i j).
Proof.
  intros n m i j S F I J. rewrite !product_entry by assumption. rewrite (proj1 (identity_unit n i I)), (proj2 (identity_unit n j J)). unfold mvec. rewrite nth_map_seq by exact I. unfold dot. rewrite (inner_comm (unit_vector j (n - Datatypes.S j)) (mrow m i)).
  assert (Z0 : is_double fzero) by (split; reflexivity).
  assert (R : nth_error (mrow m i) j = Some (entry m i j)) by (apply nth_error_nth'; rewrite (row_length m n i S I); exact J).
  assert (C : nth_error (mcol m j) i = Some (entry m i j)) by (rewrite <- (col_nth m n i j S I); apply nth_error_nth'; unfold mcol; rewrite map_length, (proj1 S); exact I).
  destruct (inner_unit j (mrow m i) (n - Datatypes.S j) _ fzero (row_finite n m i S F I) Z0 eq_refl R) as (A1 & A2), (inner_unit i (mcol m j) (n - Datatypes.S i) _ fzero (col_finite n m j S F J) Z0 eq_refl C) as (B1 & B2). auto.
Qed.
Print Assumptions matrix_identity.

(** For dimension 2 the determinant of the transpose is the same double. *)
Theorem determinant_transposed_partial : forall m, square 2 m -> mdet 2 (mtranspose 2 m) = mdet 2 m.
Proof.
  intros m (L & F). destruct m as [|r1 [|r2 [|r3 m]]]; try discriminate L. apply Forall_cons_iff in F as (L1 & F). apply Forall_cons_iff in F as (L2 & _).
  destruct r1 as [|a [|b [|e r1]]]; try discriminate L1. destruct r2 as [|c [|d [|e r2]]]; try discriminate L2.
  change (fsub (fmul a d) (fmul c b) = fsub (fmul a d) (fmul b c)). rewrite (fmul_comm c b). reflexivity.
Qed.
Print Assumptions determinant_transposed_partial.

(** Findings: from dimension 3 on the determinants of a matrix and of its transpose can differ; a matrix with NaN is
    not singular, and its inverse is NaN throughout, without an exception. *)
Definition third : double := fdiv (fint 1) (fint 3).
Definition skew : matrix := [[fof 1 (-1); third; fint 7]; [fdiv (fint 1) (fint 10); fdiv (fint 2) (fint 7); fint 5]; [fint 3; fdiv (fint 1) (fint 9); fdiv (fint 1) (fint 11)]].
Theorem determinant_transposed_refuted : exists m, square 3 m /\ all_finite m /\ feq (mdet 3 (mtranspose 3 m)) (mdet 3 m) = false.
Proof. exists skew. split; [split; [reflexivity|repeat constructor]|]. split; [repeat constructor|vm_compute; reflexivity]. Qed.
Print Assumptions determinant_transposed_refuted.
Theorem inverse_nan_refuted : exists m r, square 2 m /\ In fnan (concat m) /\ msingular 2 m = false /\ minverse 2 m = Ok r /\ forall x, In x (concat r) -> x = fnan.
Proof.
  exists [[fnan; fint 1]; [fint 1; fint 1]]. eexists. split; [split; [reflexivity|repeat constructor]|]. split; [left; reflexivity|]. split; [vm_compute; reflexivity|]. split; [vm_compute; reflexivity|].
  unfold fnan. intros x H. cbn in H. intuition congruence.
Qed.
Print Assumptions inverse_nan_refuted.

(** ** Examples *)
Example skew_square : square 3 skew /\ all_finite skew.
Proof. split; [split; [reflexivity|repeat constructor]|repeat constructor]. Qed.
Example matrix_example : mmul 2 [[fint 1; fint 2]; [fint 3; fint 4]] [[fint 5; fint 6]; [fint 7; fint 8]] = [[fint 19; fint 22]; [fint 43; fint 50]] /\
  mdet 3 [[fint 2; fint 0; fint 1]; [fint 1; fint 3; fint 1]; [fint 0; fint 1; fint 4]] = fint 23 /\
  minverse 2 [[fint 2; fint 0]; [fint 0; fint 4]] = Ok [[fof 1 (-1); S754_zero true]; [S754_zero true; fof 1 (-2)]] /\ minverse 2 [[fint 1; fint 2]; [fint 2; fint 4]] = Throw.
Proof. split; [vm_compute; reflexivity|]. split; [vm_compute; reflexivity|]. split; vm_compute; reflexivity. Qed.
