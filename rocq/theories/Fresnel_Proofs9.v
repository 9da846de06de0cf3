(** The Fresnel integrals exist, and the branches of the function put together. *)
From Coq Require Import Reals ZArith QArith Qreals List Lra Lia Psatz Bool.
Import ListNotations.
From Verif Require Import Fresnel_Model Fresnel_Spec Fresnel_Proofs Fresnel_Proofs2 Fresnel_Proofs3 Fresnel_Proofs4
  Fresnel_Proofs5 Fresnel_Proofs6 Fresnel_Proofs7 Fresnel_Proofs8.
Local Open Scope R_scope.

(** Every continuous function has a primitive vanishing at zero. *)
Section Primitive.
  Variable f : R -> R.
  Hypothesis hc : forall x, continuity_pt f x.

  Lemma wide : forall r, 0 <= r -> - r <= r.
  Proof. intros. lra. Qed.
  Definition prim_on (r : R) (h : 0 <= r) : R -> R :=
    primitive (wide r h) (FTC_P1 (wide r h) (fun x _ => hc x)).

  Lemma prim_on_derivative : forall r h x, - r <= x <= r -> derivable_pt_lim (prim_on r h) x (f x).
  Proof. intros r h x hx. apply (RiemannInt_P28 (wide r h) (fun x _ => hc x) hx). Qed.

  Lemma radius : forall x, 0 <= Rabs x + 1.
  Proof. intro x. pose proof (Rabs_pos x). lra. Qed.
  Definition prim (x : R) : R := prim_on (Rabs x + 1) (radius x) x - prim_on (Rabs x + 1) (radius x) 0.

  Lemma same_slope : forall (g h : R -> R) a b, a <= b ->
    (forall x, a <= x <= b -> derivable_pt_lim g x (f x)) -> (forall x, a <= x <= b -> derivable_pt_lim h x (f x)) ->
    g b - g a = h b - h a.
  Proof.
    intros g h a b hab hg hh. destruct (Req_dec a b) as [->|hne]; [lra|].
    destruct (MVT_cor2 (fun x => g x - h x) (fun _ => 0) a b) as (c & hc' & _); [lra| |lra].
    intros c hc'. replace 0 with (f c - f c) by ring.
    apply (derivable_pt_lim_minus g h); [apply hg|apply hh]; assumption.
  Qed.

  Lemma prim_wider : forall r h x, Rabs x + 1 <= r -> prim x = prim_on r h x - prim_on r h 0.
  Proof.
    intros r h x hr. unfold prim. pose proof (Rle_abs x). pose proof (Rle_abs (- x)). rewrite Rabs_Ropp in *.
    destruct (Rle_dec 0 x).
    - apply (same_slope (prim_on (Rabs x + 1) (radius x)) (prim_on r h) 0 x); [assumption| |]; intros y hy;
        apply prim_on_derivative; lra.
    - assert (e : forall a b c d : R, b - a = d - c -> a - b = c - d) by (intros; lra). apply e.
      apply (same_slope (prim_on (Rabs x + 1) (radius x)) (prim_on r h) x 0); [lra| |]; intros y hy;
        apply prim_on_derivative; lra.
  Qed.

  Lemma prim_zero : prim 0 = 0.
  Proof. unfold prim. ring. Qed.

  Lemma prim_derivative : forall x, derivable_pt_lim prim x (f x).
  Proof.
    intros x eps heps. pose proof (Rabs_pos x) as hx0.
    assert (hr : 0 <= Rabs x + 2) by lra.
    destruct (prim_on_derivative _ hr x) with (eps := eps) as (d & hd); [|assumption|].
    { pose proof (Rle_abs x). pose proof (Rle_abs (- x)). rewrite Rabs_Ropp in *. lra. }
    assert (hm : 0 < Rmin d 1) by (apply Rmin_pos; [apply cond_pos|lra]).
    exists (mkposreal _ hm). intros t h0 ht. cbn [pos] in ht.
    pose proof (Rmin_l d 1). pose proof (Rmin_r d 1). pose proof (Rabs_triang x t).
    rewrite (prim_wider _ hr (x + t)), (prim_wider _ hr x) by lra.
    match goal with |- Rabs ((?a - ?c - (?b - ?c)) / _ - _) < _ => replace (a - c - (b - c)) with (a - b) by ring end.
    apply hd; [assumption|lra].
  Qed.
End Primitive.

Lemma phase_continuous : forall x, continuity_pt (fun x => PI / 2 * (x * x)) x.
Proof. intro x. apply derivable_continuous_pt. reg. Qed.

Lemma integrals_exist : exists C S, fresnel_integrals C S.
Proof.
  assert (hcc : forall x, continuity_pt (fun x => cos (PI / 2 * (x * x))) x).
  { intro x. apply (continuity_pt_comp (fun x => PI / 2 * (x * x)) cos); [apply phase_continuous|apply continuity_cos]. }
  assert (hcs : forall x, continuity_pt (fun x => sin (PI / 2 * (x * x))) x).
  { intro x. apply (continuity_pt_comp (fun x => PI / 2 * (x * x)) sin); [apply phase_continuous|apply continuity_sin]. }
  exists (prim _ hcc), (prim _ hcs).
  constructor; [apply prim_zero|apply prim_zero|apply (prim_derivative _ hcc)|apply (prim_derivative _ hcs)].
Qed.

Lemma integrals_unique : forall C S C' S', fresnel_integrals C S -> fresnel_integrals C' S' -> forall x, C x = C' x /\ S x = S' x.
Proof.
  intros C S C' S' h h' x. split.
  - assert (e : C x - C' x = C 0 - C' 0).
    { apply (zero_derivative (fun x => C x - C' x)). intro y. replace 0 with (cos (PI / 2 * (y * y)) - cos (PI / 2 * (y * y))) by ring.
      apply (derivable_pt_lim_minus C C'); [apply h|apply h']. }
    rewrite (C_zero _ _ h), (C_zero _ _ h') in e. lra.
  - assert (e : S x - S' x = S 0 - S' 0).
    { apply (zero_derivative (fun x => S x - S' x)). intro y. replace 0 with (sin (PI / 2 * (y * y)) - sin (PI / 2 * (y * y))) by ring.
      apply (derivable_pt_lim_minus S S'); [apply h|apply h']. }
    rewrite (S_zero _ _ h), (S_zero _ _ h') in e. lra.
Qed.

(** The branches. *)
Lemma compute_odd : forall t, t <> 0 ->
  ComputeFresnelCosineAndSine (- t) = match ComputeFresnelCosineAndSine t with Some (c, s) => Some (- c, - s) | None => None end.
Proof.
  intros t h. unfold ComputeFresnelCosineAndSine, fresnel. rewrite Rabs_Ropp.
  destruct (if Rlt_dec (Rabs t * Rabs t) (25625 / 10000) then _ else _) as [[s c]|]; [|reflexivity].
  destruct (Rlt_dec (- t) 0), (Rlt_dec t 0); try lra; [reflexivity|]. rewrite !Ropp_involutive. reflexivity.
Qed.

Lemma compute_nonneg : forall t, 0 <= t ->
  ComputeFresnelCosineAndSine t =
    if Rlt_dec (t * t) (25625 / 10000) then Some (small_C t, small_S t)
    else if Rlt_dec 36974 t then Some (1 / 2, 1 / 2) else Some (med_C t, med_S t).
Proof.
  intros t h. unfold ComputeFresnelCosineAndSine, fresnel. rewrite (Rabs_pos_eq t) by assumption.
  destruct (Rlt_dec t 0) as [hl|_]; [lra|].
  destruct (Rlt_dec (t * t) (25625 / 10000)) as [h1|h1].
  - rewrite impl_small_value. reflexivity.
  - destruct (Rlt_dec 36974 t); [reflexivity|]. rewrite impl_medium_value; [reflexivity|].
    destruct (Req_dec t 0); [subst; lra|lra].
Qed.

Lemma past_x0 : forall t, 0 <= t -> ~ t * t < 25625 / 10000 -> x0 <= t.
Proof. intros t h hn. pose proof x0_square. pose proof x0_pos. nra. Qed.

Lemma accurate_nonneg : forall C S t, fresnel_integrals C S -> 0 <= t <= 36974 ->
  within (/ 10 ^ 13) C S t (ComputeFresnelCosineAndSine t).
Proof.
  intros C S t hf ht. rewrite compute_nonneg by lra. destruct (Rlt_dec (t * t) (25625 / 10000)) as [h|h].
  - exists (small_C t), (small_S t). split; [reflexivity|].
    assert (h41 : t * t <= 41 / 16) by lra.
    pose proof (small_C_error C S t hf (proj1 ht) h41) as h1. pose proof (small_S_error C S t hf (proj1 ht) h41) as h2.
    unfold e_small in *. assert (e2 : / 10 ^ 13 = 100 * / 10 ^ 15) by (field; apply pow_nonzero; lra).
    assert (0 < / 10 ^ 15) by (apply Rinv_0_lt_compat, pow_lt; lra). unfold Rdiv in *.
    rewrite (Rabs_minus_sym (small_C t)), (Rabs_minus_sym (small_S t)). lra.
  - destruct (Rlt_dec 36974 t) as [h'|_]; [lra|]. exists (med_C t), (med_S t). split; [reflexivity|].
    rewrite (Rabs_minus_sym (med_C t)), (Rabs_minus_sym (med_S t)).
    split; [apply (med_C_error C S)|apply (med_S_error C S)]; try assumption; apply past_x0; lra.
Qed.

Lemma far_nonneg : forall C S t, fresnel_integrals C S -> 36974 < t ->
  within (/ (3 * t) + / 10 ^ 13) C S t (ComputeFresnelCosineAndSine t).
Proof.
  intros C S t hf ht. rewrite compute_nonneg by lra. destruct (Rlt_dec (t * t) (25625 / 10000)) as [h|h]; [nra|].
  destruct (Rlt_dec 36974 t) as [_|h']; [|lra].
  assert (hx : x0 <= t) by (apply past_x0; lra).
  exists (1 / 2), (1 / 2). split; [reflexivity|]. split.
  - replace (1 / 2 - C t) with ((1 / 2 - med_C t) + - (C t - med_C t)) by ring. apply Rle_trans with (1 := Rabs_triang _ _).
    rewrite Rabs_Ropp. apply Rplus_le_compat; [apply far_C; assumption|apply (med_C_error C S); assumption].
  - replace (1 / 2 - S t) with ((1 / 2 - med_S t) + - (S t - med_S t)) by ring. apply Rle_trans with (1 := Rabs_triang _ _).
    rewrite Rabs_Ropp. apply Rplus_le_compat; [apply far_S; assumption|apply (med_S_error C S); assumption].
Qed.

Lemma within_negated : forall e C S t, fresnel_integrals C S -> t < 0 ->
  within e C S (- t) (ComputeFresnelCosineAndSine (- t)) -> within e C S t (ComputeFresnelCosineAndSine t).
Proof.
  intros e C S t hf ht (c & s & hr & h1 & h2). exists (- c), (- s).
  rewrite <- (Ropp_involutive t) at 1. rewrite compute_odd, hr by lra. split; [reflexivity|].
  rewrite (C_odd C S t hf) in h1. rewrite (S_odd C S t hf) in h2.
  rewrite <- (Rabs_Ropp (- c - C t)), <- (Rabs_Ropp (- s - S t)).
  replace (- (- c - C t)) with (c - - C t) by ring. replace (- (- s - S t)) with (s - - S t) by ring. split; assumption.
Qed.

(** Just past the switch to one half. *)
Definition t_far : R := sqrt 1367076677.
Lemma t_far_square : t_far * t_far = 1367076677.
Proof. apply sqrt_sqrt. lra. Qed.
Lemma t_far_range : 36974 < t_far < 36975.
Proof. pose proof t_far_square. pose proof (sqrt_pos 1367076677). fold t_far in *. split; nra. Qed.

Lemma whole_turns : forall k a, (0 <= k)%Z -> sin (a + 2 * IZR k * PI) = sin a.
Proof. intros k a h. rewrite <- (Z2Nat.id k h), <- INR_IZR_INZ. apply sin_period. Qed.
Lemma whole_turns_cos : forall k a, (0 <= k)%Z -> cos (a + 2 * IZR k * PI) = cos a.
Proof. intros k a h. rewrite <- (Z2Nat.id k h), <- INR_IZR_INZ. apply cos_period. Qed.

Lemma far_sin : sin (PI / 2 * (t_far * t_far)) = 1 /\ cos (PI / 2 * (t_far * t_far)) = 0.
Proof.
  rewrite t_far_square. replace (PI / 2 * 1367076677) with (PI / 2 + 2 * IZR 341769169 * PI) by field.
  rewrite whole_turns, whole_turns_cos by lia. split; [apply sin_PI2|apply cos_PI2].
Qed.

Lemma far_gap : 1 / 2 + 85 / 10 ^ 7 <= med_C t_far.
Proof.
  unfold med_C. destruct far_sin as [-> ->]. pose proof t_far_range as ht. pose proof (far_zz t_far (proj1 ht)) as hz.
  pose proof pi_bounds as [_ hpi]. unfold pi_hi in hpi. rewrite Q2R_frac in hpi. pose proof PI_3.
  assert (hu : 0 <= uu t_far) by (apply Rlt_le, uu_pos; lra).
  assert (hu2 : uu t_far <= / 1000000).
  { assert (he : uu t_far = / zz t_far * / zz t_far) by (unfold uu; field; lra). rewrite he.
    assert (0 < / zz t_far) by (apply Rinv_0_lt_compat; lra).
    assert (/ zz t_far <= / 1000) by (apply Rinv_le_contravar; lra). nra. }
  destruct (ratF_range _ hu) as [h1 _].
  assert (hf : 99999 / 100000 <= ff t_far) by (unfold ff; nra).
  assert (hp : 0 < PI * t_far) by nra.
  apply Rplus_le_compat_l. apply Rmult_le_reg_r with (PI * t_far); [assumption|].
  unfold Rdiv at 2. rewrite Rmult_assoc, Rinv_l by lra.
  assert (PI * t_far <= 3.1416 * 36975) by nra. lra.
Qed.
