(** Single steps, the step size control and the loop around it. *)
From Coq Require Import Reals List Bool Lra Lia PeanoNat.
From Verif Require Import Integ_Model Integ_Spec.
Import ListNotations.
Local Open Scope R_scope.

Lemma ltb_t : forall a b, a < b -> ltb a b = true.
Proof. intros a b H. unfold ltb. destruct (Rlt_dec a b); [reflexivity | contradiction]. Qed.
Lemma ltb_f : forall a b, b <= a -> ltb a b = false.
Proof. intros a b H. unfold ltb. destruct (Rlt_dec a b); [lra | reflexivity]. Qed.
Lemma leb_t : forall a b, a <= b -> leb a b = true.
Proof. intros a b H. unfold leb. destruct (Rle_dec a b); [reflexivity | contradiction]. Qed.
Lemma leb_f : forall a b, b < a -> leb a b = false.
Proof. intros a b H. unfold leb. destruct (Rle_dec a b); [lra | reflexivity]. Qed.
Lemma eqb_t : forall a b, a = b -> eqb a b = true.
Proof. intros a b H. unfold eqb. destruct (Req_EM_T a b); [reflexivity | contradiction]. Qed.
Lemma eqb_f : forall a b, a <> b -> eqb a b = false.
Proof. intros a b H. unfold eqb. destruct (Req_EM_T a b); [contradiction | reflexivity]. Qed.

(** Splits on every comparison of booleans in the goal and the context. *)
Ltac rdec :=
  repeat match goal with
  | |- context [ltb ?a ?b] => let C := fresh "C" in unfold ltb at 1; destruct (Rlt_dec a b) as [C | C]
  | |- context [leb ?a ?b] => let C := fresh "C" in unfold leb at 1; destruct (Rle_dec a b) as [C | C]
  | |- context [eqb ?a ?b] => let C := fresh "C" in unfold eqb at 1; destruct (Req_EM_T a b) as [C | C]
  end.
Lemma ltb_iff : forall a b, ltb a b = true <-> a < b.
Proof. intros a b. unfold ltb. destruct (Rlt_dec a b); split; intro H; auto; discriminate || contradiction. Qed.
Lemma leb_iff : forall a b, leb a b = true <-> a <= b.
Proof. intros a b. unfold leb. destruct (Rle_dec a b); split; intro H; auto; discriminate || contradiction. Qed.
Lemma eqb_iff : forall a b, eqb a b = true <-> a = b.
Proof. intros a b. unfold eqb. destruct (Req_EM_T a b); split; intro H; auto; discriminate || contradiction. Qed.
Lemma ltb_no : forall a b, ltb a b = false <-> b <= a.
Proof. intros a b. unfold ltb. destruct (Rlt_dec a b); split; intro H; auto; try discriminate; lra. Qed.
Lemma leb_no : forall a b, leb a b = false <-> b < a.
Proof. intros a b. unfold leb. destruct (Rle_dec a b); split; intro H; auto; try discriminate; lra. Qed.

Ltac minmax :=
  repeat match goal with
  | |- context [Rmin ?a ?b] => unfold Rmin at 1; destruct (Rle_dec a b)
  | |- context [Rmax ?a ?b] => unfold Rmax at 1; destruct (Rle_dec a b)
  | H : context [Rmin ?a ?b] |- _ => unfold Rmin in H at 1; destruct (Rle_dec a b)
  | H : context [Rmax ?a ?b] |- _ => unfold Rmax in H at 1; destruct (Rle_dec a b)
  end.

(** * Vectors *)

Lemma axpy_length : forall a d x, length (axpy a d x) = length x.
Proof. intros a d. induction d as [| d0 d IH]; intros [| x0 x]; cbn; auto. Qed.
Lemma axpy_nth : forall a d x i, length d = length x -> nth i (axpy a d x) 0 = nth i x 0 + a * nth i d 0.
Proof.
  intros a d. induction d as [| d0 d IH]; intros [| x0 x] [| i] H; cbn in *; try discriminate; try lra.
  apply IH. lia.
Qed.

Lemma norm_nonneg : forall e, 0 <= state_norm e.
Proof. induction e as [| a e IH]; cbn; [lra |]. apply Rle_trans with (1 := IH). apply Rmax_r. Qed.
Lemma norm_bound : forall e i, (forall a, In a e -> 0 <= a) -> nth i e 0 <= state_norm e.
Proof.
  induction e as [| a e IH]; intros [| i] H; cbn; try lra; try apply Rmax_l.
  apply Rle_trans with (state_norm e); [apply IH; intros b B; apply H; right; exact B | apply Rmax_r].
Qed.
Lemma norm_attained : forall e, (forall a, In a e -> 0 <= a) -> exists i, nth i e 0 = state_norm e.
Proof.
  induction e as [| a e IH]; intro H; [exists 0%nat; reflexivity |].
  destruct IH as [i I]; [intros b B; apply H; right; exact B |].
  cbn [state_norm fold_right]. fold (state_norm e). unfold Rmax. destruct (Rle_dec a (state_norm e)).
  - exists (S i). exact I.
  - exists 0%nat. reflexivity.
Qed.
Lemma map_Rabs_nth : forall e i, nth i (map Rabs e) 0 = Rabs (nth i e 0).
Proof. intros e i. rewrite <- Rabs_R0 at 1. apply map_nth. Qed.
Lemma map_Rabs_pos : forall e a, In a (map Rabs e) -> 0 <= a.
Proof. intros e a H. apply in_map_iff in H. destruct H as [b [B _]]. rewrite <- B. apply Rabs_pos. Qed.

Lemma combination_1 : forall x a d, length d = length x -> combination x [(a, d)] (axpy a d x).
Proof. intros x a d H. split; [apply axpy_length |]. intro i. rewrite (axpy_nth a d x i H). cbn. lra. Qed.
Lemma combination_2 : forall x a d b c, length d = length x -> length c = length x ->
  combination x [(a, d); (b, c)] (axpy b c (axpy a d x)).
Proof.
  intros x a d b c H J. split; [rewrite ? axpy_length; reflexivity |]. intro i.
  rewrite axpy_nth by (rewrite axpy_length; exact J). rewrite (axpy_nth a d x i H). cbn. lra.
Qed.
Lemma combination_3 : forall x a d b c a' d', length d = length x -> length c = length x -> length d' = length x ->
  combination x [(a, d); (b, c); (a', d')] (axpy a' d' (axpy b c (axpy a d x))).
Proof.
  intros x a d b c a' d' H J K. split; [rewrite ? axpy_length; reflexivity |]. intro i.
  rewrite axpy_nth by (rewrite ? axpy_length; exact K). rewrite axpy_nth by (rewrite axpy_length; exact J).
  rewrite (axpy_nth a d x i H). cbn. lra.
Qed.

Lemma rk3_kutta : forall f k t h x x1 e, keeps_dimension (length x) f -> rk3 f k t h x = Some (x1, e) ->
  kutta_step f k t h x x1 (state_norm e) /\ length x1 = length x.
Proof.
  intros f k t h x x1 e K H. unfold rk3 in H.
  destruct (f k t x) as [d0 |] eqn:E0; [| discriminate].
  destruct (f k (t + h / 2) (axpy (h / 2) d0 x)) as [da |] eqn:Ea; [| discriminate].
  destruct (f k (t + h) (axpy (2 * h) da (axpy (- h) d0 x))) as [db |] eqn:Eb; [| discriminate].
  injection H as <- <-.
  assert (L0 := K _ _ _ _ eq_refl E0). assert (La := K _ _ _ _ (axpy_length _ _ _) Ea).
  assert (Lb := K _ _ _ _ (eq_trans (axpy_length _ _ _) (axpy_length _ _ _)) Eb).
  rewrite ? axpy_length in La. rewrite ? axpy_length in Lb.
  split; [| rewrite ? axpy_length; reflexivity].
  exists d0, da, db, (axpy (h / 2) d0 x), (axpy (2 * h) da (axpy (- h) d0 x)), (axpy h da x).
  split; [exact E0 |]. split; [apply combination_1; exact L0 |]. split; [exact Ea |].
  split; [apply combination_2; assumption |]. split; [exact Eb |].
  split; [replace (2 / 3 * h) with (4 * (h / 6)) by field; apply combination_3; assumption |].
  split; [apply combination_1; exact La |]. split.
  - intro i. set (x1 := axpy (h / 6) db (axpy (4 * (h / 6)) da (axpy (h / 6) d0 x))).
    assert (B := norm_bound (map Rabs (axpy (-1) x1 (axpy h da x))) i (map_Rabs_pos _)).
    rewrite map_Rabs_nth in B.
    rewrite axpy_nth in B by (unfold x1; rewrite ? axpy_length; reflexivity).
    replace (nth i (axpy h da x) 0 - nth i x1 0) with (nth i (axpy h da x) 0 + -1 * nth i x1 0) by lra. exact B.
  - set (x1 := axpy (h / 6) db (axpy (4 * (h / 6)) da (axpy (h / 6) d0 x))).
    destruct (norm_attained (map Rabs (axpy (-1) x1 (axpy h da x))) (map_Rabs_pos _)) as [i I].
    exists i. rewrite <- I. rewrite map_Rabs_nth.
    rewrite (axpy_nth (-1) x1 (axpy h da x) i) by (unfold x1; rewrite ? axpy_length; reflexivity). f_equal. lra.
Qed.

(** * The third root *)

Lemma pow3_nonneg : forall x, 0 <= pow3 x.
Proof. intro x. unfold pow3. destruct (Rlt_dec 0 x); [| lra]. left. apply exp_pos. Qed.
Lemma Rpower_cube : forall x, 0 < x -> Rpower x (1 / 3) ^ 3 = x.
Proof.
  intros x H. rewrite <- Rpower_pow by apply exp_pos. rewrite Rpower_mult.
  replace (1 / 3 * INR 3) with 1 by (cbn; field). apply Rpower_1. exact H.
Qed.
Lemma cube_lt : forall a b, 0 <= a -> 0 <= b -> a ^ 3 < b ^ 3 -> a < b.
Proof. intros a b A B H. destruct (Rlt_le_dec a b) as [L | L]; [exact L |]. exfalso. apply (Rlt_irrefl (a ^ 3)).
  apply Rlt_le_trans with (1 := H). apply pow_incr. lra. Qed.
Lemma cube_le : forall a b, 0 <= a -> 0 <= b -> a ^ 3 <= b ^ 3 -> a <= b.
Proof. intros a b A B H. destruct (Rle_lt_dec a b) as [L | L]; [exact L |]. exfalso.
  assert (b ^ 3 < a ^ 3); [| lra].
  assert (0 < a * a - b * b) by nra. cbn. nra. Qed.
Lemma pow3_cube : forall x, 0 <= x -> pow3 x ^ 3 = x.
Proof. intros x H. unfold pow3. destruct (Rlt_dec 0 x); [apply Rpower_cube; assumption | cbn; lra]. Qed.
Lemma pow3_lt1 : forall x, x < 1 -> pow3 x < 1.
Proof.
  intros x H. destruct (Rle_lt_dec 0 x).
  - apply cube_lt; [apply pow3_nonneg | lra |]. rewrite pow3_cube by assumption. lra.
  - unfold pow3. destruct (Rlt_dec 0 x); lra.
Qed.
Lemma pow3_ge1 : forall x, 1 <= x -> 1 <= pow3 x.
Proof. intros x H. apply cube_le; [lra | apply pow3_nonneg |]. rewrite pow3_cube by lra. lra. Qed.
Lemma pow3_le : forall x y, 0 <= x -> 0 <= y -> x <= y ^ 3 -> pow3 x <= y.
Proof. intros x y X Y H. apply cube_le; [apply pow3_nonneg | exact Y |]. rewrite pow3_cube by exact X. exact H. Qed.

(** * The step size control *)

Lemma working_min_smallest : forall s, working_min s = smallest_step (req_min (sets s)) (time s).
Proof. reflexivity. Qed.
Lemma smallest_pos : forall r t, 0 < smallest_step r t.
Proof.
  intros r t. unfold smallest_step. apply Rlt_le_trans with (/ 10 ^ 14); [apply Rinv_0_lt_compat; apply pow_lt; lra |].
  apply Rle_trans with (Rmax (/ 10 ^ 14) (Rabs t * / 10 ^ 14)); apply Rmax_l.
Qed.
Lemma cap_le : forall s h, cap s h <= h.
Proof. intros s h. unfold cap. destruct (max_step (sets s)); [apply Rmin_l | lra]. Qed.
Lemma cap_max : forall s h m, max_step (sets s) = Some m -> cap s h <= m.
Proof. intros s h m H. unfold cap. rewrite H. apply Rmin_r. Qed.
Lemma cap_ge : forall s h a, a <= h -> (forall m, max_step (sets s) = Some m -> a <= m) -> a <= cap s h.
Proof. intros s h a A B. unfold cap. destruct (max_step (sets s)) as [m |]; [apply Rmin_glb; auto | exact A]. Qed.

(** A step within the accuracy is accepted, and the next step is no smaller. *)
Lemma adjusted_accepts : forall s e h at_min,
  0 <= h -> (forall m, max_step (sets s) = Some m -> h <= m) -> 0 <= e -> e <= accuracy_in_use s ->
  exists next at', calc_adjusted s (Some e) h at_min = (Some (true, next), at') /\ h <= next.
Proof.
  intros s e h at_min H M E A. unfold calc_adjusted.
  set (n0 := if eqb e 0 then 5 * h else 9 / 10 * h * pow3 (accuracy_in_use s / e)).
  set (at1 := if ltb h n0 then false else at_min).
  set (n1 := if ltb h n0 then (if ltb n0 (12 / 10 * h) then h else n0) else n0). cbv zeta.
  destruct (ltb n1 h && at1) eqn:B; [exists h, at1; split; [reflexivity | lra] |].
  rewrite (leb_t e (accuracy_in_use s)) by exact A.
  set (n2 := if ltb n1 h then h else n1).
  assert (N2 : h <= n2). { unfold n2. destruct (ltb n1 h) eqn:L; [lra |]. apply ltb_no. exact L. }
  assert (N4 : h <= cap s (Rmax (Rmin n2 (5 * h)) (1 / 10 * h))).
  { apply cap_ge; [| exact M]. apply Rle_trans with (2 := Rmax_l _ _). apply Rmin_glb; lra. }
  set (n4 := cap s (Rmax (Rmin n2 (5 * h)) (1 / 10 * h))) in *.
  assert (V : validate_smaller s h n4 = true).
  { unfold validate_smaller. rewrite (ltb_f n4 h) by exact N4. rewrite andb_false_r. reflexivity. }
  rewrite V.
  assert (N5 : h <= Rmax n4 (working_min s)) by (apply Rle_trans with (1 := N4); apply Rmax_l).
  rewrite (leb_t h _) by exact N5. eexists. eexists. split; [reflexivity | exact N5].
Qed.

(** What a step beyond the accuracy leads to. *)
Lemma adjusted_shrinks : forall s e h (at_min : bool),
  0 < h -> 0 <= accuracy_in_use s -> accuracy_in_use s < e ->
  (forall m, max_step (sets s) = Some m -> h <= m) ->
  if at_min then calc_adjusted s (Some e) h at_min = (Some (true, h), true)
  else exists n, 1 / 10 * h <= n <= 9 / 10 * h /\
    calc_adjusted s (Some e) h at_min =
      (if ltb n (working_min s) && throws (sets s) then (None, false)
       else (Some (leb h (Rmax n (working_min s)), Rmax n (working_min s)), leb n (working_min s))).
Proof.
  intros s e h at_min H A E M. unfold calc_adjusted.
  rewrite (eqb_f e 0) by lra.
  assert (P : pow3 (accuracy_in_use s / e) < 1).
  { apply pow3_lt1. apply Rmult_lt_reg_r with e; [lra |]. unfold Rdiv. rewrite Rmult_assoc, Rinv_l by lra. lra. }
  assert (P0 := pow3_nonneg (accuracy_in_use s / e)).
  set (n0 := 9 / 10 * h * pow3 (accuracy_in_use s / e)).
  assert (N0 : 0 <= n0 /\ n0 < h) by (unfold n0; split; nra).
  rewrite (ltb_f h n0) by lra. cbv zeta. rewrite (ltb_t n0 h) by lra.
  destruct at_min; [reflexivity |]. cbn [andb].
  rewrite (leb_f e (accuracy_in_use s)) by lra.
  set (n3 := Rmax (Rmin (Rmin n0 (9 / 10 * h)) (5 * h)) (1 / 10 * h)).
  assert (N3 : 1 / 10 * h <= n3 <= 9 / 10 * h).
  { unfold n3. split; [apply Rmax_r |]. apply Rmax_lub; [| lra].
    apply Rle_trans with (1 := Rmin_l _ _). apply Rmin_r. }
  assert (N4 : cap s n3 = n3).
  { unfold cap. destruct (max_step (sets s)) as [m |] eqn:EM; [| reflexivity]. apply Rmin_left. specialize (M m eq_refl). lra. }
  rewrite N4. exists n3. split; [exact N3 |].
  unfold validate_smaller. rewrite (ltb_t n3 h) by lra. rewrite andb_true_r.
  destruct (ltb n3 (working_min s) && throws (sets s)); [reflexivity |]. cbn [negb]. cbv zeta. f_equal.
  unfold Rmax. destruct (Rle_dec n3 (working_min s)) as [C | C].
  - rewrite (leb_t n3 (working_min s)) by exact C. rewrite eqb_t by reflexivity. reflexivity.
  - rewrite (leb_f n3 (working_min s)) by lra. rewrite eqb_f by lra. reflexivity.
Qed.
