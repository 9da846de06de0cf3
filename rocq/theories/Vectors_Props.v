(** C110: vectors of rounded doubles. *)
From Coq Require Import List Bool Arith ZArith Lia Ascii.
From Coq Require Import Floats.SpecFloat.
From Verif Require Import Base Binary64 Binary64_Round Binary64_Order Binary64_Ext Binary64_Sqrt Vectors_Model Vectors_Spec Vectors_Proofs Vectors_Proofs2.
Import ListNotations.
Local Open Scope Z_scope.

(** Sums and dot products do not depend on the order of their operands, bit for bit, NaN and infinities included. *)
Theorem vector_operands_commute : forall a b, vadd a b = vadd b a /\ dot a b = dot b a.
Proof. intros a b. split; [apply transform_comm|apply inner_comm]. Qed.
Print Assumptions vector_operands_commute.

(** Two vectors compare as equal exactly when no component is NaN and all components have equal values; so a vector
    equals itself exactly when it holds no NaN. *)
Theorem vector_equality : forall a b, Forall valid a -> Forall valid b ->
  (veq a b = true <-> equal_numbers a b) /\ (veq a a = true <-> ~ In fnan a).
Proof.
  intros a b A B. split; [apply veq_equal; assumption|]. rewrite (veq_equal a a A A). unfold equal_numbers. clear B. induction a as [|x a IH]; [split; [intros _ []|constructor]|].
  apply Forall_cons_iff in A as (X & A). specialize (IH A). split.
  - intros H [->|I]; inversion H; subst; [destruct H3 as ((_ & H3) & _); exact (H3 eq_refl)|apply IH in H5; exact (H5 I)].
  - intros H. assert (N : number x) by (split; [exact X|intros ->; apply H; left; reflexivity]). constructor; [auto|]. apply IH. intros I. apply H. right. exact I.
Qed.
Print Assumptions vector_equality.

(** For finite vectors, the difference equals Zero() exactly when all components have equal values: no difference is
    lost, though each is rounded. *)
Theorem vector_difference_zero : forall n a b, List.length a = n -> List.length b = n -> Forall is_double a -> Forall is_double b ->
  (veq (vsub a b) (Zero n) = true <-> equal_values a b).
Proof.
  intros n a b LA LB A B. rewrite veq_equal.
  - unfold Zero. rewrite <- LA. apply vsub_zero; [congruence|exact A|exact B].
  - clear LA LB. revert b B. induction A as [|x a X A IH]; intros b B; [constructor|]. destruct B as [|y b Y B]; [constructor|]. constructor; [apply (result_place _ _ (fsub_spec x y X Y))|apply IH, B].
  - unfold Zero. apply Forall_forall. intros x H. apply repeat_spec in H as ->. reflexivity.
Qed.
Print Assumptions vector_difference_zero.

(** Adding Zero() and multiplying by 1 keep all values of a finite vector. *)
Theorem vector_neutral : forall v, Forall is_double v -> equal_values (vadd v (Zero (List.length v))) v /\ equal_values (vmul v (fint 1)) v.
Proof.
  intros v F. unfold equal_values. induction F as [|x v X F [I1 I2]]; [split; constructor|]. split; [change (Zero (List.length (x :: v))) with (fzero :: Zero (List.length v)); unfold vadd; cbn [transform]|cbn [vmul map]]; constructor; try assumption.
  - destruct (add_zero x X) as (D & V). auto.
  - destruct (mul_one x X) as (D & V). auto.
Qed.
Print Assumptions vector_neutral.

(** The dot product with a unit vector is the component along it. *)
Theorem dot_unit : forall v i k x, Forall is_double v -> nth_error v i = Some x ->
  is_double (dot v (unit_vector i k)) /\ val (dot v (unit_vector i k)) = val x /\ is_double (dot (unit_vector i k) v) /\ val (dot (unit_vector i k) v) = val x.
Proof.
  intros v i k x F E. unfold dot. rewrite (inner_comm (unit_vector i k) v). assert (Z0 : is_double fzero) by (split; reflexivity). destruct (inner_unit i v k x fzero F Z0 eq_refl E) as (A & B). auto.
Qed.
Print Assumptions dot_unit.

(** The norm of a finite vector is a number that is not negative, perhaps infinite, and never NaN; with a NaN component
    norms and dot products are NaN. *)
Theorem norm_number : forall v, (Forall is_double v -> number (norm v) /\ 0 <= place (norm v)) /\
  (In fnan v -> norm v = fnan /\ forall w, List.length v = List.length w -> dot v w = fnan).
Proof.
  intros v. split.
  - intros F. destruct (inner_number v fzero F) as (N & P); [split; [reflexivity|discriminate]|cbn; lia|]. apply fsqrt_number; [exact N|]. change (place fzero) with 0 in P. exact P.
  - intros H. unfold norm, dot. rewrite inner_nan by (auto; reflexivity). split; [reflexivity|]. intros w L. rewrite inner_comm. apply inner_nan; [exact L|exact H].
Qed.
Print Assumptions norm_number.

(** Cross products change sign with the order of their operands, for all doubles; a difference of equal numbers is +0
    both ways.  The cross product of a vector with itself is zero where the products do not overflow and NaN where they
    do. *)
Theorem cross_antisymmetric : forall a b, let '(x, y, z) := cross a b in let '(x', y', z') := cross b a in opposite x x' /\ opposite y y' /\ opposite z z'.
Proof.
  intros [[a1 a2] a3] [[b1 b2] b3]. cbn [cross]. rewrite (fmul_comm b2 a3), (fmul_comm b3 a2), (fmul_comm b3 a1), (fmul_comm b1 a3), (fmul_comm b1 a2), (fmul_comm b2 a1).
  split; [apply fsub_opposite|split; apply fsub_opposite].
Qed.
Print Assumptions cross_antisymmetric.
Theorem cross_itself : forall x y z, let '(cx, cy, cz) := cross (x, y, z) (x, y, z) in
  cx = (if finite (fmul y z) then fzero else fnan) /\ cy = (if finite (fmul z x) then fzero else fnan) /\ cz = (if finite (fmul x y) then fzero else fnan).
Proof.
  intros x y z. cbn [cross]. rewrite (fmul_comm z y), (fmul_comm z x), (fmul_comm y x). assert (S : forall p, fsub p p = if finite p then fzero else fnan) by (intros p; destruct (fsub_self p) as (A & B); destruct (finite p); auto).
  rewrite !S. auto.
Qed.
Print Assumptions cross_itself.

(** reduce removes exactly the component asked for, and throws exactly for an index out of range or one dimension;
    operator[] throws exactly for an index out of range; the list constructor exactly for another number of values. *)
Theorem vector_access : forall n v index, List.length v = n ->
  ((index < n)%nat -> (2 <= n)%nat -> reduce n v index = Ok (firstn index v ++ skipn (S index) v)) /\
  (reduce n v index = Throw <-> (n < 2)%nat \/ (n <= index)%nat) /\
  (forall x, at_index n v index = Ok x <-> nth_error v index = Some x) /\ (at_index n v index = Throw <-> nth_error v index = None) /\
  (forall m, (Vector m v = Ok v <-> m = n) /\ (Vector m v = Throw <-> m <> n)).
Proof.
  intros n v index L. assert (R : (index < n)%nat -> (2 <= n)%nat -> reduce n v index = Ok (firstn index v ++ skipn (S index) v)).
  { intros I N. unfold reduce. rewrite (proj2 (Nat.leb_le 2 n) N), (proj2 (Nat.ltb_lt index n) I). cbn [throw_unless]. cbv zeta. rewrite reduce_all by lia. rewrite Nat.sub_0_r. cbn [app].
    replace (List.length (firstn index v ++ skipn (S index) v) <=? n - 1)%nat with true; [reflexivity|]. symmetry. apply Nat.leb_le. rewrite app_length, firstn_length, skipn_length. lia. }
  split; [exact R|]. split; [split|].
  - intros H. destruct (lt_dec n 2) as [X|X]; [left; exact X|]. destruct (le_lt_dec n index) as [Y|Y]; [right; exact Y|]. rewrite R in H by lia. discriminate.
  - unfold reduce. intros [H|H]; [rewrite (proj2 (Nat.leb_gt 2 n) H); reflexivity|]. rewrite (proj2 (Nat.ltb_ge index n) H). destruct (2 <=? n)%nat; reflexivity.
  - unfold at_index, Vector, throw_unless. split; [|split].
    + intros x. destruct (Nat.ltb_spec index n) as [I|I]; [destruct (nth_error v index); split; intros H; try discriminate; congruence|]. split; [discriminate|]. intros H. assert (nth_error v index = None) by (apply nth_error_None; lia). congruence.
    + destruct (Nat.ltb_spec index n) as [I|I]; [|split; [intros _; apply nth_error_None; lia|reflexivity]]. assert (nth_error v index <> None) by (apply nth_error_Some; lia). destruct (nth_error v index); [split; discriminate|congruence].
    + intros m. rewrite L. destruct (Nat.eqb_spec n m) as [E|E]; split; split; intros H; try reflexivity; try discriminate; congruence.
Qed.
Print Assumptions vector_access.

(** ** Findings *)
(** normalized() of a finite vector that is not zero need not be finite, and need not differ from zero: the squares
    underflow or overflow.  The zero vector gives NaN. *)
Theorem normalized_unit_refuted : exists small large, Forall is_double small /\ Forall is_double large /\
  veq small (Zero 3) = false /\ veq large (Zero 3) = false /\
  norm small = fzero /\ In fnan (normalized small) /\ finite (norm large) = false /\ veq (normalized large) (Zero 3) = true /\ In fnan (normalized (Zero 3)).
Proof.
  exists [fof 1 (-600); fzero; fzero], [fof 1 600; fof 3 700; fzero].
  split; [repeat constructor|]. split; [repeat constructor|]. split; [vm_compute; reflexivity|]. split; [vm_compute; reflexivity|]. split; [vm_compute; reflexivity|].
  split; [right; left; vm_compute; reflexivity|]. split; [vm_compute; reflexivity|]. split; [vm_compute; reflexivity|left; vm_compute; reflexivity].
Qed.
Print Assumptions normalized_unit_refuted.
(** An infinite component breaks a - a == Zero() though a == a. *)
Theorem infinite_difference_refuted : exists a, ~ In fnan a /\ veq a a = true /\ veq (vsub a a) (Zero 2) = false.
Proof. exists [S754_infinity false; fint 1]. split; [intros [H|[H|[]]]; vm_compute in H; discriminate|]. split; vm_compute; reflexivity. Qed.
Print Assumptions infinite_difference_refuted.

(** ** Examples *)
Definition some_vector : vector := [fof 1 (-1); fint (-3); fof 5 (-2)].
Example some_vector_finite : Forall is_double some_vector /\ Forall valid some_vector /\ nth_error some_vector 2 = Some (fof 5 (-2)).
Proof. split; [repeat constructor|]. split; [repeat constructor|reflexivity]. Qed.
Example some_vector_operations : dot some_vector (unit_vector 2 0) = fof 5 (-2) /\ reduce 3 some_vector 1 = Ok [fof 1 (-1); fof 5 (-2)] /\
  veq (vsub some_vector some_vector) (Zero 3) = true /\ norm [fint 3; fint 4] = fint 5 /\ norm [fint 3; fnan] = fnan.
Proof. split; [vm_compute; reflexivity|]. split; [vm_compute; reflexivity|]. split; [vm_compute; reflexivity|]. split; vm_compute; reflexivity. Qed.
Example cross_example : cross (fint 1, fint 2, fint 3) (fint 4, fint 5, fint 6) = (fint (-3), fint 6, fint (-3)).
Proof. vm_compute. reflexivity. Qed.
