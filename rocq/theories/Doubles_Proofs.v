(** Lemmas about comparisons with tolerances. *)
From Coq Require Import List Bool ZArith Lia.
From Coq Require Import Floats.SpecFloat.
From Verif Require Import Base Binary64 Binary64_Round Binary64_Order Doubles_Model Doubles_Spec.
Import ListNotations.
Local Open Scope Z_scope.

Lemma zero_double : is_double fzero. Proof. split; reflexivity. Qed.
Lemma fle_sub x y w : is_double x -> is_double y -> is_double w -> (fle (fsub x y) w = true <-> rnd (val x - val y) <= val w).
Proof. intros X Y W. apply fle_result_l; [apply fsub_spec; assumption|assumption]. Qed.
Lemma fle_add x y w : is_double x -> is_double y -> is_double w -> (fle w (fadd x y) = true <-> val w <= rnd (val x + val y)).
Proof. intros X Y W. apply fle_result_r; [apply fadd_spec; assumption|assumption]. Qed.
Lemma near_le z w : rnd z <= w -> 2 ^ 53 * (z - w) <= Z.abs z.
Proof. intros L. pose proof (rnd_near z). lia. Qed.
Lemma near_ge z w : w <= rnd z -> 2 ^ 53 * (w - z) <= Z.abs z.
Proof. intros L. pose proof (rnd_near z). lia. Qed.
Lemma within_range x mn mx tol : is_double x -> is_double mn -> is_double mx -> is_double tol ->
  (within x mn mx tol -> IsWithinRange x mn mx tol = true) /\ (IsWithinRange x mn mx tol = true -> nearly_within x mn mx tol).
Proof.
  intros X A B T. pose proof (proj1 (val_repr x X)) as R. unfold IsWithinRange. rewrite andb_true_iff, fle_sub, fle_add by assumption. split.
  - intros [L H]. split; [apply rnd_le; assumption|apply rnd_ge; assumption].
  - intros [L H]. split; [apply near_le, L|apply near_ge, H].
Qed.
Lemma within_nan mn mx tol : IsWithinRange fnan mn mx tol = false.
Proof. unfold IsWithinRange. replace (fle (fsub mn tol) fnan) with false; [reflexivity|]. destruct (fsub mn tol); reflexivity. Qed.

(** Boxes. *)
Ltac leb := repeat match goal with
  | H : context [fle ?a ?b = true] |- _ => rewrite (fle_val a b) in H by assumption
  | |- context [fle ?a ?b] => rewrite (fle_val a b) by assumption
  end; rewrite ?Z.leb_le in *.
Lemma box_cases mn mx tol : vec_double mn -> vec_double mx -> is_double tol ->
  (AxisAlignedBox mn mx tol = Ok (mk_box mn mx tol) /\ proper (mk_box mn mx tol)) \/ (AxisAlignedBox mn mx tol = Throw /\ ~ proper (mk_box mn mx tol)).
Proof.
  intros A B T. pose proof A as A'. pose proof B as B'. destruct A as (A1 & A2 & A3), B as (B1 & B2 & B3). unfold AxisAlignedBox, throw_unless. pose proof zero_double as Z0.
  rewrite !fle_val by assumption. change (val fzero) with 0.
  destruct (Z.leb_spec 0 (val tol)); [|right; split; [reflexivity|unfold proper; cbn; lia]]. destruct (Z.leb_spec (val (vx mn)) (val (vx mx))); [|right; split; [reflexivity|unfold proper; cbn; lia]]. destruct (Z.leb_spec (val (vy mn)) (val (vy mx))); [|right; split; [reflexivity|unfold proper; cbn; lia]]. destruct (Z.leb_spec (val (vz mn)) (val (vz mx))); [|right; split; [reflexivity|unfold proper; cbn; lia]].
  left. split; [reflexivity|]. split; [split; [exact A'|split; [exact B'|exact T]]|]. cbn. lia.
Qed.
Lemma contains_axes b p : DoContains b p = true <->
  IsWithinRange (vx p) (vx (min_corner b)) (vx (max_corner b)) (tolerance b) = true /\ IsWithinRange (vy p) (vy (min_corner b)) (vy (max_corner b)) (tolerance b) = true /\ IsWithinRange (vz p) (vz (min_corner b)) (vz (max_corner b)) (tolerance b) = true.
Proof. unfold DoContains, IsWithinRange. rewrite !andb_true_iff. tauto. Qed.
Lemma intersected_val a b : proper a -> proper b -> (IsBoxIntersected a b = true <->
  (val (vx (min_corner b)) <= val (vx (max_corner a)) /\ val (vx (min_corner a)) <= val (vx (max_corner b))) /\
  (val (vy (min_corner b)) <= val (vy (max_corner a)) /\ val (vy (min_corner a)) <= val (vy (max_corner b))) /\
  (val (vz (min_corner b)) <= val (vz (max_corner a)) /\ val (vz (min_corner a)) <= val (vz (max_corner b)))).
Proof.
  intros (((A1 & A2 & A3) & (A4 & A5 & A6) & _) & _) (((B1 & B2 & B3) & (B4 & B5 & B6) & _) & _). unfold IsBoxIntersected. rewrite negb_true_iff, !orb_false_iff. rewrite !flt_val by assumption. rewrite !Z.ltb_ge. tauto.
Qed.
Lemma fmax_val a b : is_double a -> is_double b -> is_double (fmax a b) /\ val (fmax a b) = Z.max (val a) (val b).
Proof. intros A B. unfold fmax. rewrite flt_val by assumption. destruct (Z.ltb_spec (val a) (val b)); split; auto; lia. Qed.
Lemma fmin_val a b : is_double a -> is_double b -> is_double (fmin a b) /\ val (fmin a b) = Z.min (val a) (val b).
Proof. intros A B. unfold fmin. rewrite flt_val by assumption. destruct (Z.ltb_spec (val b) (val a)); split; auto; lia. Qed.
Lemma range_mono mn mx tol a x b : is_double mn -> is_double mx -> is_double tol -> is_double a -> is_double x -> is_double b -> val a <= val x <= val b ->
  IsWithinRange a mn mx tol = true -> IsWithinRange b mn mx tol = true -> IsWithinRange x mn mx tol = true.
Proof.
  intros. unfold IsWithinRange in *. rewrite andb_true_iff, fle_sub, fle_add in * by assumption. lia.
Qed.
