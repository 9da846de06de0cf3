(** What ComputeFresnelCosineAndSine and the spiral headings compute. *)
From Coq Require Import Reals ZArith QArith Qreals List Lra Lia Psatz Bool.
Import ListNotations.
From Verif Require Import Fresnel_Model Fresnel_Spec Fresnel_Proofs Fresnel_Proofs2 Fresnel_Proofs3 Fresnel_Proofs4
  Fresnel_Proofs5 Fresnel_Proofs6 Fresnel_Proofs7 Fresnel_Proofs8 Fresnel_Proofs9.
Local Open Scope R_scope.

(** The specification is met by exactly one pair of functions. *)
Theorem fresnel_integrals_exist : exists C S, fresnel_integrals C S /\
  forall C' S', fresnel_integrals C' S' -> forall x, C' x = C x /\ S' x = S x.
Proof.
  destruct integrals_exist as (C & S & h). exists C, S. split; [assumption|].
  intros C' S' h' x. apply (integrals_unique C' S' C S); assumption.
Qed.
Print Assumptions fresnel_integrals_exist.

(** C92. Up to 36974 both coordinates are within 1e-13 of the integrals. *)
Theorem fresnel_accurate : forall C S t, fresnel_integrals C S -> Rabs t <= 36974 ->
  within (/ 10 ^ 13) C S t (ComputeFresnelCosineAndSine t).
Proof.
  intros C S t hf ht. pose proof (Rle_abs t). pose proof (Rle_abs (- t)). rewrite Rabs_Ropp in *.
  destruct (Rle_dec 0 t); [apply accurate_nonneg; [assumption|lra]|].
  apply within_negated; [assumption|lra|]. apply accurate_nonneg; [assumption|lra].
Qed.
Print Assumptions fresnel_accurate.

(** Beyond it the error is of the order of 1 / t. *)
Theorem fresnel_accurate_far : forall C S t, fresnel_integrals C S -> 36974 < Rabs t ->
  within (/ (3 * Rabs t) + / 10 ^ 13) C S t (ComputeFresnelCosineAndSine t).
Proof.
  intros C S t hf ht. destruct (Rle_dec 0 t).
  - rewrite Rabs_pos_eq in * by assumption. apply far_nonneg; assumption.
  - rewrite Rabs_left in * by lra. apply within_negated; [assumption|lra|]. apply far_nonneg; assumption.
Qed.
Print Assumptions fresnel_accurate_far.

(** One half is not the value for every argument past 36974. *)
Theorem fresnel_accurate_everywhere_refuted : exists t, forall C S, fresnel_integrals C S ->
  ~ within (8 / 10 ^ 6) C S t (ComputeFresnelCosineAndSine t).
Proof.
  exists t_far. intros C S hf (c & s & hr & h1 & _). pose proof t_far_range as ht.
  rewrite compute_nonneg in hr by lra. destruct (Rlt_dec (t_far * t_far) (25625 / 10000)); [nra|].
  destruct (Rlt_dec 36974 t_far); [|lra]. injection hr as <- _.
  assert (hx : x0 <= t_far) by (apply past_x0; lra).
  pose proof (med_C_error C S t_far hf hx) as h2. pose proof far_gap as h3.
  pose proof (Rle_abs (- (C t_far - med_C t_far))). pose proof (Rle_abs (- (1 / 2 - C t_far))). rewrite Rabs_Ropp in *.
  assert (/ 10 ^ 13 <= / 10 ^ 7) by (apply Rinv_le_contravar; [apply pow_lt; lra|apply Rle_pow; [lra|lia]]).
  assert (e2 : / 10 ^ 6 = 10 * / 10 ^ 7) by (field; apply pow_nonzero; lra).
  assert (0 < / 10 ^ 7) by (apply Rinv_0_lt_compat, pow_lt; lra). unfold Rdiv in *. lra.
Qed.
Print Assumptions fresnel_accurate_everywhere_refuted.

Example fresnel_at_one : forall C S, fresnel_integrals C S -> within (/ 10 ^ 13) C S 1 (ComputeFresnelCosineAndSine 1).
Proof. intros C S h. apply fresnel_accurate; [assumption|]. rewrite Rabs_pos_eq; lra. Qed.
Example fresnel_at_minus_five : forall C S, fresnel_integrals C S -> within (/ 10 ^ 13) C S (-5) (ComputeFresnelCosineAndSine (-5)).
Proof. intros C S h. apply fresnel_accurate; [assumption|]. rewrite Rabs_left; lra. Qed.
Example fresnel_at_forty_thousand : forall C S, fresnel_integrals C S ->
  within (/ (3 * Rabs 40000) + / 10 ^ 13) C S 40000 (ComputeFresnelCosineAndSine 40000) /\
  ComputeFresnelCosineAndSine 40000 = Some (1 / 2, 1 / 2).
Proof.
  intros C S h. split; [apply fresnel_accurate_far; [assumption|]; rewrite Rabs_pos_eq; lra|].
  rewrite compute_nonneg by lra. destruct (Rlt_dec (40000 * 40000) (25625 / 10000)); [lra|].
  destruct (Rlt_dec 36974 40000); [reflexivity|lra].
Qed.

(** The function is odd, for every argument, and zero at zero. *)
Theorem fresnel_odd : forall t c s, ComputeFresnelCosineAndSine t = Some (c, s) ->
  ComputeFresnelCosineAndSine (- t) = Some (- c, - s).
Proof.
  intros t c s h. destruct (Req_dec t 0) as [->|hn].
  - rewrite Ropp_0, h. rewrite compute_nonneg in h by lra. destruct (Rlt_dec (0 * 0) (25625 / 10000)); [|lra].
    unfold small_C, small_S in h. injection h as <- <-. f_equal. f_equal; unfold Rdiv; ring.
  - rewrite compute_odd, h by assumption. reflexivity.
Qed.
Print Assumptions fresnel_odd.

(** A value comes back for every argument: no table is read past its end. *)
Theorem fresnel_total : forall t, exists c s, ComputeFresnelCosineAndSine t = Some (c, s).
Proof.
  intro t. destruct integrals_exist as (C & S & hf). destruct (Rle_dec (Rabs t) 36974).
  - destruct (fresnel_accurate C S t hf r) as (c & s & h & _). exists c, s. exact h.
  - destruct (fresnel_accurate_far C S t hf (Rnot_le_lt _ _ n)) as (c & s & h & _). exists c, s. exact h.
Qed.
Print Assumptions fresnel_total.

Lemma integral_lipschitz : forall (F f : R -> R), (forall x, derivable_pt_lim F x (f x)) -> (forall x, Rabs (f x) <= 1) ->
  forall x y, Rabs (F x - F y) <= Rabs (x - y).
Proof.
  intros F f hd hb. assert (hle : forall x y, x < y -> Rabs (F x - F y) <= Rabs (x - y)).
  { intros x y h. destruct (MVT_cor2 F f x y h (fun c _ => hd c)) as (c & hc & _).
    rewrite (Rabs_minus_sym (F x)), (Rabs_minus_sym x), hc, Rabs_mult.
    rewrite <- (Rmult_1_l (Rabs (y - x))) at 2. apply Rmult_le_compat_r; [apply Rabs_pos|apply hb]. }
  intros x y. destruct (Rtotal_order x y) as [h|[->|h]]; [apply hle; assumption| |].
  - unfold Rminus. rewrite !Rplus_opp_r. lra.
  - rewrite (Rabs_minus_sym (F x)), (Rabs_minus_sym x). apply hle. assumption.
Qed.

(** Nearby arguments have nearby values, across the change of method at 1.6 as well. *)
Theorem fresnel_nearby : forall t t' c s c' s', Rabs t <= 36974 -> Rabs t' <= 36974 ->
  ComputeFresnelCosineAndSine t = Some (c, s) -> ComputeFresnelCosineAndSine t' = Some (c', s') ->
  Rabs (c - c') <= Rabs (t - t') + 2 / 10 ^ 13 /\ Rabs (s - s') <= Rabs (t - t') + 2 / 10 ^ 13.
Proof.
  intros t t' c s c' s' ht ht' h h'. destruct integrals_exist as (C & S & hf).
  destruct (fresnel_accurate C S t hf ht) as (c1 & s1 & e1 & hc1 & hs1). rewrite h in e1. injection e1 as <- <-.
  destruct (fresnel_accurate C S t' hf ht') as (c1 & s1 & e1 & hc2 & hs2). rewrite h' in e1. injection e1 as <- <-.
  pose proof (integral_lipschitz C _ (C_derivative _ _ hf) (fun x => abs_cos _) t t') as l1.
  pose proof (integral_lipschitz S _ (S_derivative _ _ hf) (fun x => abs_sin _) t t') as l2.
  assert (tri : forall a b d e k, Rabs (a - d) <= k -> Rabs (b - e) <= k -> Rabs (d - e) <= Rabs (t - t') ->
    Rabs (a - b) <= Rabs (t - t') + 2 * k).
  { intros a b d e k k1 k2 k3. replace (a - b) with ((a - d) + ((d - e) + - (b - e))) by ring.
    pose proof (Rabs_triang (a - d) ((d - e) + - (b - e))). pose proof (Rabs_triang (d - e) (- (b - e))). rewrite Rabs_Ropp in *. lra. }
  split; [apply (tri c c' (C t) (C t'))|apply (tri s s' (S t) (S t'))]; assumption.
Qed.
Print Assumptions fresnel_nearby.

(** There is a step in the sine coordinate at 36974. *)
Theorem fresnel_nearby_everywhere_refuted : exists t, forall d, 0 < d -> exists t' c s c' s',
  Rabs (t - t') < d /\ ComputeFresnelCosineAndSine t = Some (c, s) /\ ComputeFresnelCosineAndSine t' = Some (c', s') /\
  8 / 10 ^ 6 < Rabs (s - s').
Proof.
  exists 36974. intros d hd. exists (36974 + d / 2), (med_C 36974), (med_S 36974), (1 / 2), (1 / 2).
  split; [rewrite Rabs_left; lra|].
  split; [rewrite compute_nonneg by lra; destruct (Rlt_dec (36974 * 36974) (25625 / 10000)); [lra|];
    destruct (Rlt_dec 36974 36974); [lra|reflexivity]|].
  split; [rewrite compute_nonneg by lra; destruct (Rlt_dec ((36974 + d / 2) * (36974 + d / 2)) (25625 / 10000)); [nra|];
    destruct (Rlt_dec 36974 (36974 + d / 2)); [reflexivity|lra]|].
  unfold med_S. replace (PI / 2 * (36974 * 36974)) with (0 + 2 * IZR 341769169 * PI) by field.
  rewrite whole_turns, whole_turns_cos, sin_0, cos_0 by lia.
  pose proof pi_bounds as [_ hpi]. unfold pi_hi in hpi. rewrite Q2R_frac in hpi. pose proof PI_3.
  assert (hz : 1000 < zz 36974) by (unfold zz; lra).
  assert (hu : 0 <= uu 36974) by (apply Rlt_le, uu_pos; lra).
  assert (hu2 : uu 36974 <= / 1000000).
  { assert (he : uu 36974 = / zz 36974 * / zz 36974) by (unfold uu; field; lra). rewrite he.
    assert (0 < / zz 36974) by (apply Rinv_0_lt_compat; lra).
    assert (/ zz 36974 <= / 1000) by (apply Rinv_le_contravar; lra). nra. }
  destruct (ratF_range _ hu) as [h1 _].
  assert (hf : 99999 / 100000 <= ff 36974) by (unfold ff; nra).
  assert (hp : 0 < PI * 36974) by lra.
  assert (hq : 85 / 10 ^ 7 <= (ff 36974 * 1 + gg 36974 * 0) / (PI * 36974)).
  { apply Rmult_le_reg_r with (PI * 36974); [assumption|]. unfold Rdiv at 2. rewrite Rmult_assoc, Rinv_l by lra. lra. }
  rewrite Rabs_left by lra. lra.
Qed.
Print Assumptions fresnel_nearby_everywhere_refuted.

Example fresnel_nearby_at_switch : forall c s c' s',
  ComputeFresnelCosineAndSine (16 / 10) = Some (c, s) -> ComputeFresnelCosineAndSine (161 / 100) = Some (c', s') ->
  Rabs (c - c') <= 1 / 100 + 2 / 10 ^ 13.
Proof.
  intros c s c' s' h h'.
  assert (a : Rabs (16 / 10) <= 36974) by (rewrite Rabs_pos_eq; lra).
  assert (b : Rabs (161 / 100) <= 36974) by (rewrite Rabs_pos_eq; lra).
  destruct (fresnel_nearby _ _ _ _ _ _ a b h h') as [k _].
  replace (Rabs (16 / 10 - 161 / 100)) with (1 / 100) in k; [exact k|]. rewrite Rabs_left; lra.
Qed.

(** C93. FresnelSpiralHeadingDot is the derivative of FresnelSpiralHeading. *)
Theorem spiral_heading_rate : forall t k_dot,
  derivable_pt_lim (fun t => FresnelSpiralHeading t k_dot) t (FresnelSpiralHeadingDot t k_dot).
Proof.
  intros t k. unfold FresnelSpiralHeading, FresnelSpiralHeadingDot.
  replace (t * k) with ((1 / 2 * 1 * t + 1 / 2 * t * 1) * k + 1 / 2 * t * t * 0) by field.
  apply (derivable_pt_lim_mult (fun t => 1 / 2 * t * t) (fun _ => k)); [|apply derivable_pt_lim_const].
  apply (derivable_pt_lim_mult (fun t => 1 / 2 * t) (fun t => t)); [|apply derivable_pt_lim_id].
  apply (derivable_pt_lim_scal (fun t => t)). apply derivable_pt_lim_id.
Qed.
Print Assumptions spiral_heading_rate.

(** FresnelSpiralHeading is the direction of travel along the unit-speed spiral drawn by the Fresnel integrals,
    for left turning (k_dot > 0) and, mirrored, right turning (k_dot < 0) spirals. *)
Theorem spiral_tangent : forall C S t k_dot, fresnel_integrals C S -> k_dot <> 0 ->
  let a := sqrt (PI / Rabs k_dot) in
  let side := k_dot / Rabs k_dot in
  derivable_pt_lim (fun t => a * C (t / a)) t (cos (FresnelSpiralHeading t k_dot)) /\
  derivable_pt_lim (fun t => side * (a * S (t / a))) t (sin (FresnelSpiralHeading t k_dot)).
Proof.
  intros C S t k hf hk a side. pose proof PI_3. pose proof (Rabs_pos_lt k hk) as hak.
  assert (hq : 0 < PI / Rabs k) by (apply Rdiv_lt_0_compat; lra).
  assert (ha : 0 < a) by (apply sqrt_lt_R0; assumption).
  assert (haa : a * a = PI / Rabs k) by (apply sqrt_sqrt; lra).
  assert (hp : PI / 2 * (t / a * (t / a)) = 1 / 2 * t * t * Rabs k).
  { replace (t / a * (t / a)) with (t * t * / (a * a)) by (field; lra). rewrite haa. field. split; lra. }
  assert (hl : derivable_pt_lim (fun t => t / a) t (/ a)).
  { replace (/ a) with (1 * / a + t * 0) by ring.
    apply (derivable_pt_lim_mult (fun t => t) (fun _ => / a)); [apply derivable_pt_lim_id|apply derivable_pt_lim_const]. }
  assert (gen : forall F f, derivable_pt_lim F (t / a) f -> derivable_pt_lim (fun t => a * F (t / a)) t f).
  { intros F f h. replace f with (a * (f * / a)) at 1 by (field; lra).
    apply (derivable_pt_lim_scal (fun t => F (t / a))). apply (derivable_pt_lim_comp (fun t => t / a) F); assumption. }
  pose proof (gen C _ (C_derivative _ _ hf (t / a))) as g1. pose proof (gen S _ (S_derivative _ _ hf (t / a))) as g2.
  rewrite hp in g1, g2. unfold FresnelSpiralHeading.
  destruct (Rle_dec 0 k) as [h|h].
  - rewrite Rabs_pos_eq in * by assumption. split; [assumption|]. unfold side. rewrite Rabs_pos_eq by assumption.
    replace (sin (1 / 2 * t * t * k)) with (k / k * sin (1 / 2 * t * t * k)) by (field; assumption).
    apply (derivable_pt_lim_scal (fun t => a * S (t / a))). assumption.
  - unfold side. rewrite Rabs_left in * by lra. split.
    + replace (1 / 2 * t * t * k) with (- (1 / 2 * t * t * - k)) by ring. rewrite cos_neg. assumption.
    + replace (sin (1 / 2 * t * t * k)) with (k / - k * sin (1 / 2 * t * t * - k)).
      * apply (derivable_pt_lim_scal (fun t => a * S (t / a))). assumption.
      * replace (1 / 2 * t * t * k) with (- (1 / 2 * t * t * - k)) by ring. rewrite sin_neg. field. assumption.
Qed.
Print Assumptions spiral_tangent.

(** The points computed with ComputeFresnelCosineAndSine stay next to that spiral. *)
Theorem spiral_followed : forall C S t k_dot, fresnel_integrals C S -> k_dot <> 0 ->
  let a := sqrt (PI / Rabs k_dot) in
  Rabs t <= 36974 * a -> exists c s, ComputeFresnelCosineAndSine (t / a) = Some (c, s) /\
  Rabs (a * c - a * C (t / a)) <= a / 10 ^ 13 /\ Rabs (a * s - a * S (t / a)) <= a / 10 ^ 13.
Proof.
  intros C S t k hf hk a ht. pose proof PI_3. pose proof (Rabs_pos_lt k hk) as hak.
  assert (hq : 0 < PI / Rabs k) by (apply Rdiv_lt_0_compat; lra).
  assert (ha : 0 < a) by (apply sqrt_lt_R0; assumption).
  assert (hr : Rabs (t / a) <= 36974).
  { unfold Rdiv. rewrite Rabs_mult, (Rabs_pos_eq (/ a)) by (apply Rlt_le, Rinv_0_lt_compat; assumption).
    apply Rmult_le_reg_r with a; [assumption|]. rewrite Rmult_assoc, Rinv_l by lra. lra. }
  destruct (fresnel_accurate C S (t / a) hf hr) as (c & s & he & h1 & h2). exists c, s. split; [assumption|].
  split; rewrite <- Rmult_minus_distr_l, Rabs_mult, (Rabs_pos_eq a) by lra; apply Rmult_le_compat_l; lra.
Qed.
Print Assumptions spiral_followed.

Example spiral_left : forall C S, fresnel_integrals C S ->
  derivable_pt_lim (fun t => sqrt (PI / Rabs 2) * C (t / sqrt (PI / Rabs 2))) 3 (cos (FresnelSpiralHeading 3 2)).
Proof. intros C S h. apply (spiral_tangent C S 3 2 h). lra. Qed.
Example spiral_heading_value : FresnelSpiralHeading 3 2 = 9 /\ FresnelSpiralHeadingDot 3 2 = 6.
Proof. unfold FresnelSpiralHeading, FresnelSpiralHeadingDot. split; field. Qed.
