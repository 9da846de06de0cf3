(** The whole function: all arguments. *)
From Coq Require Import Reals ZArith QArith Qreals List Lra Lia Psatz Bool.
Import ListNotations.
From Verif Require Import Fresnel_Model Fresnel_Spec Fresnel_Proofs Fresnel_Proofs2 Fresnel_Proofs3 Fresnel_Proofs4
  Fresnel_Proofs5 Fresnel_Proofs6 Fresnel_Proofs7.
Local Open Scope R_scope.

Lemma quart_x0 : quart x0 = 1681 / 256.
Proof. unfold quart. rewrite x0_square. field. Qed.

Lemma arg_x0 : PI / 2 * (x0 * x0) = quarter_pi41.
Proof. unfold quarter_pi41. rewrite x0_square. reflexivity. Qed.

Lemma eval_sub : forall env a b, eval env (Sub a b) = eval env a - eval env b.
Proof. intros. unfold Sub. cbn [eval]. lra. Qed.

Lemma t0_value : forall env, eval env cst_t0 = 1681 / 256.
Proof. intro. unfold cst_t0. cbn [eval]. apply Q2R_frac. Qed.

Lemma f_value : eval env e_f = ff x0.
Proof.
  unfold e_f, ff, ratF. rewrite eval_sub. cbn [eval]. rewrite !hx_value. cbn [eval env]. unfold Rdiv. lra.
Qed.
Lemma g_value : eval env e_g = gg x0.
Proof.
  unfold e_g, gg, ratG, zz. cbn [eval]. rewrite !hx_value. cbn [eval env]. rewrite Q2R_frac, x0_square. unfold Rdiv. ring.
Qed.

Lemma e_C_value : eval env e_C = small_C x0 - med_C x0.
Proof.
  unfold e_C, small_C, med_C. rewrite quart_x0, arg_x0, eval_sub. cbn [eval]. rewrite eval_sub. cbn [eval].
  rewrite !hx_value, !t0_value, f_value, g_value. unfold e_pix. cbn [eval env]. rewrite Q2R_frac. unfold Rdiv. ring.
Qed.
Lemma e_S_value : eval env e_S = small_S x0 - med_S x0.
Proof.
  unfold e_S, small_S, med_S. rewrite quart_x0, arg_x0, x0_square, eval_sub. cbn [eval]. rewrite eval_sub. cbn [eval].
  rewrite !hx_value, !t0_value, f_value, g_value. unfold e_pix. cbn [eval env]. rewrite !Q2R_frac. unfold Rdiv. ring.
Qed.

Lemma bound14 : IZR 12379400392853 / unit_ <= / 10 ^ 14.
Proof.
  unfold unit_. change (2 ^ 90)%Z with 1237940039285380274899124224%Z. replace (10 ^ 14) with 100000000000000 by ring. lra.
Qed.

Lemma join_C : Rabs (small_C x0 - med_C x0) <= / 10 ^ 14.
Proof. rewrite <- e_C_value. apply Rle_trans with (2 := bound14). apply (small_sound env qenv); [apply env_bounds|apply small_e_C]. Qed.
Lemma join_S : Rabs (small_S x0 - med_S x0) <= / 10 ^ 14.
Proof. rewrite <- e_S_value. apply Rle_trans with (2 := bound14). apply (small_sound env qenv); [apply env_bounds|apply small_e_S]. Qed.

(** From x0 on. *)
Lemma PI_3 : 3 < PI.
Proof. pose proof pi_bounds as [h _]. unfold pi_lo in h. rewrite Q2R_frac in h. lra. Qed.
Lemma PI_314 : 314 / 100 < PI.
Proof. pose proof pi_bounds as [h _]. unfold pi_lo in h. rewrite Q2R_frac in h. lra. Qed.

Lemma zz_eight : forall x, x0 <= x -> 8 <= zz x /\ 0 <= uu x <= / 64.
Proof.
  intros x hx. pose proof x0_pos. pose proof x0_square. pose proof pi_bounds as [h _]. unfold pi_lo in h. rewrite Q2R_frac in h.
  assert (hz : 8 <= zz x) by (unfold zz; assert (41 / 16 <= x * x) by nra; nra).
  assert (he : uu x = / zz x * / zz x) by (unfold uu; field; lra).
  assert (hp : 0 < / zz x) by (apply Rinv_0_lt_compat; lra).
  assert (hl : / zz x <= / 8) by (apply Rinv_le_contravar; lra).
  repeat split; try assumption; rewrite he; nra.
Qed.

Definition kappa : R := 107 / 10 ^ 15.

Lemma excess : forall x a b, x0 <= x -> Rabs a <= 1 -> Rabs b <= 1 ->
  Rabs (a * (uu x * alpha (uu x)) + b * (1 / zz x * beta (uu x))) <= kappa / (x * x).
Proof.
  intros x a b hx ha hb. pose proof x0_pos as hp0. destruct (zz_eight x hx) as [hz hu].
  pose proof (alpha_small (uu x) hu) as h1. pose proof (beta_small (uu x) hu) as h2.
  assert (he : uu x = / zz x * / zz x) by (unfold uu; field; lra).
  assert (hp : 0 < / zz x) by (apply Rinv_0_lt_compat; lra).
  assert (hl : / zz x <= / 8) by (apply Rinv_le_contravar; lra).
  assert (hk : / zz x * (3325 / 10 ^ 16) <= kappa / (x * x)).
  { unfold kappa, zz. pose proof PI_314. rewrite Rinv_mult.
    assert (hq : / PI <= / (314 / 100)) by (apply Rinv_le_contravar; lra).
    assert (0 < / (x * x)) by (apply Rinv_0_lt_compat; nra). assert (0 < / 10 ^ 16) by (apply Rinv_0_lt_compat, pow_lt; lra).
    assert (0 < / PI) by (apply Rinv_0_lt_compat; lra).
    assert (e1 : / 10 ^ 15 = 10 * / 10 ^ 16) by (field; apply pow_nonzero; lra).
    unfold Rdiv. rewrite e1. replace (/ PI * / (x * x) * (3325 * / 10 ^ 16)) with ((3325 * / PI) * (/ 10 ^ 16 * / (x * x))) by ring.
    replace (107 * (10 * / 10 ^ 16) * / (x * x)) with (1070 * (/ 10 ^ 16 * / (x * x))) by ring.
    apply Rmult_le_compat_r; [nra|lra]. }
  apply Rle_trans with (2 := hk).
  apply Rle_trans with (1 := Rabs_triang _ _). rewrite !Rabs_mult. rewrite (Rabs_pos_eq (uu x)) by lra.
  unfold Rdiv. rewrite Rmult_1_l, (Rabs_pos_eq (/ zz x)) by lra. rewrite he at 1.
  change (4 * 10 ^ 11)%Z with 400000000000%Z in h1. change (5 * 10 ^ 13)%Z with 50000000000000%Z in h2.
  set (al := Rabs (alpha (uu x))) in *. set (be := Rabs (beta (uu x))) in *. set (z := / zz x) in *.
  assert (hal : 0 <= al) by apply Rabs_pos. assert (hbe : 0 <= be) by apply Rabs_pos.
  assert (m1 : Rabs a * (z * z * al) <= z * (/ 8 * / 400000000000)).
  { apply Rle_trans with (1 * (z * z * al)); [apply Rmult_le_compat_r; [|assumption]|].
    - apply Rmult_le_pos; [nra|assumption].
    - rewrite Rmult_1_l, Rmult_assoc. apply Rmult_le_compat_l; [lra|]. apply Rmult_le_compat; lra. }
  assert (m2 : Rabs b * (z * be) <= z * / 50000000000000).
  { apply Rle_trans with (1 * (z * be)); [apply Rmult_le_compat_r; [|assumption]|].
    - apply Rmult_le_pos; lra.
    - rewrite Rmult_1_l. apply Rmult_le_compat_l; lra. }
  lra.
Qed.

(** A function with a derivative of at most k / x^2 moves by at most k / x0. *)
Lemma moves_little : forall (f f' : R -> R) k a b, 0 < a -> a <= b -> 0 <= k ->
  (forall x, a <= x <= b -> derivable_pt_lim f x (f' x)) ->
  (forall x, a <= x <= b -> Rabs (f' x) <= k / (x * x)) -> Rabs (f b - f a) <= k / a.
Proof.
  intros f f' k a b ha hab hk hd hb.
  assert (hi : forall x, 0 < x -> derivable_pt_lim (fun x => k * (1 / x)) x (k * (- 1 / (x * x)))).
  { intros x hx. apply (derivable_pt_lim_scal (fun x => 1 / x)). apply (inverse_derivative id); [unfold id; lra|apply derivable_pt_lim_id]. }
  assert (h1 : f a - k * (1 / a) <= f b - k * (1 / b)).
  { apply (grows (fun x => f x - k * (1 / x)) (fun x => f' x - k * (- 1 / (x * x))) a b hab).
    - intros x hx. apply (derivable_pt_lim_minus f (fun x => k * (1 / x))); [apply hd; assumption|apply hi; lra].
    - intros x hx. specialize (hb x hx).
      pose proof (Rle_abs (- f' x)). rewrite Rabs_Ropp in *. unfold Rdiv in *. lra. }
  assert (h2 : - (f a + k * (1 / a)) <= - (f b + k * (1 / b))).
  { apply (grows (fun x => - (f x + k * (1 / x))) (fun x => - (f' x + k * (- 1 / (x * x)))) a b hab).
    - intros x hx. apply (derivable_pt_lim_opp (fun x => f x + k * (1 / x))).
      apply (derivable_pt_lim_plus f (fun x => k * (1 / x))); [apply hd; assumption|apply hi; lra].
    - intros x hx. specialize (hb x hx). pose proof (Rle_abs (f' x)). unfold Rdiv in *. lra. }
  assert (0 < / b) by (apply Rinv_0_lt_compat; lra). assert (0 <= k * / b) by nra.
  apply Rabs_le. unfold Rdiv in *. lra.
Qed.

Lemma abs_sin : forall a, Rabs (sin a) <= 1.
Proof. intro a. apply Rabs_le, SIN_bound. Qed.
Lemma abs_cos : forall a, Rabs (cos a) <= 1.
Proof. intro a. apply Rabs_le, COS_bound. Qed.

Lemma x0_range : 16 / 10 <= x0.
Proof. pose proof x0_square. pose proof x0_pos. nra. Qed.

Lemma kappa_x0 : kappa / x0 <= 67 / 10 ^ 15.
Proof.
  pose proof x0_range. unfold kappa. assert (hi : / x0 <= / (16 / 10)) by (apply Rinv_le_contravar; lra).
  assert (0 < / x0) by (apply Rinv_0_lt_compat; lra). assert (0 < / 10 ^ 15) by (apply Rinv_0_lt_compat, pow_lt; lra).
  unfold Rdiv. set (t := / 10 ^ 15) in *. assert (t * / x0 <= t * / (16 / 10)) by (apply Rmult_le_compat_l; lra). nra.
Qed.

Lemma med_C_error : forall C S x, fresnel_integrals C S -> x0 <= x -> Rabs (C x - med_C x) <= / 10 ^ 13.
Proof.
  intros C S x hf hx. pose proof x0_pos as hp.
  assert (h : Rabs ((C x - med_C x) - (C x0 - med_C x0)) <= kappa / x0).
  { apply (moves_little (fun x => C x - med_C x)
      (fun x => cos (PI / 2 * (x * x)) - (cos (PI / 2 * (x * x)) * (1 + uu x * alpha (uu x)) + sin (PI / 2 * (x * x)) * (1 / zz x * beta (uu x))))
      kappa x0 x hp hx).
    - unfold kappa. assert (0 < / 10 ^ 15) by (apply Rinv_0_lt_compat, pow_lt; lra). unfold Rdiv. lra.
    - intros y hy. apply (derivable_pt_lim_minus C med_C); [apply (C_derivative _ _ hf)|apply med_C_derivative; lra].
    - intros y hy. set (c := cos (PI / 2 * (y * y))). set (s := sin (PI / 2 * (y * y))).
      replace (c - (c * (1 + uu y * alpha (uu y)) + s * (1 / zz y * beta (uu y))))
        with (- (c * (uu y * alpha (uu y)) + s * (1 / zz y * beta (uu y)))) by ring.
      rewrite Rabs_Ropp. apply excess; [lra|apply abs_cos|apply abs_sin]. }
  pose proof (small_C_error C S x0 hf (Rlt_le _ _ hp) (Req_le _ _ x0_square)) as h1.
  pose proof join_C as h2. pose proof kappa_x0 as h3. unfold e_small in h1.
  set (a := C x) in *. set (b := med_C x) in *. set (c := C x0) in *. set (d := med_C x0) in *. set (e := small_C x0) in *.
  replace (a - b) with (((a - b) - (c - d)) + ((c - e) + (e - d))) by ring.
  pose proof (Rabs_triang ((a - b) - (c - d)) ((c - e) + (e - d))). pose proof (Rabs_triang (c - e) (e - d)).
  assert (e1 : / 10 ^ 14 = 10 * / 10 ^ 15) by (field; apply pow_nonzero; lra).
  assert (e2 : / 10 ^ 13 = 100 * / 10 ^ 15) by (field; apply pow_nonzero; lra).
  assert (0 < / 10 ^ 15) by (apply Rinv_0_lt_compat, pow_lt; lra). unfold Rdiv in *. lra.
Qed.

Lemma med_S_error : forall C S x, fresnel_integrals C S -> x0 <= x -> Rabs (S x - med_S x) <= / 10 ^ 13.
Proof.
  intros C S x hf hx. pose proof x0_pos as hp.
  assert (h : Rabs ((S x - med_S x) - (S x0 - med_S x0)) <= kappa / x0).
  { apply (moves_little (fun x => S x - med_S x)
      (fun x => sin (PI / 2 * (x * x)) - (sin (PI / 2 * (x * x)) * (1 + uu x * alpha (uu x)) - cos (PI / 2 * (x * x)) * (1 / zz x * beta (uu x))))
      kappa x0 x hp hx).
    - unfold kappa. assert (0 < / 10 ^ 15) by (apply Rinv_0_lt_compat, pow_lt; lra). unfold Rdiv. lra.
    - intros y hy. apply (derivable_pt_lim_minus S med_S); [apply (S_derivative _ _ hf)|apply med_S_derivative; lra].
    - intros y hy. set (c := cos (PI / 2 * (y * y))). set (s := sin (PI / 2 * (y * y))).
      replace (s - (s * (1 + uu y * alpha (uu y)) - c * (1 / zz y * beta (uu y))))
        with ((- s) * (uu y * alpha (uu y)) + c * (1 / zz y * beta (uu y))) by ring.
      apply excess; [lra|rewrite Rabs_Ropp; apply abs_sin|apply abs_cos]. }
  pose proof (small_S_error C S x0 hf (Rlt_le _ _ hp) (Req_le _ _ x0_square)) as h1.
  pose proof join_S as h2. pose proof kappa_x0 as h3. unfold e_small in h1.
  set (a := S x) in *. set (b := med_S x) in *. set (c := S x0) in *. set (d := med_S x0) in *. set (e := small_S x0) in *.
  replace (a - b) with (((a - b) - (c - d)) + ((c - e) + (e - d))) by ring.
  pose proof (Rabs_triang ((a - b) - (c - d)) ((c - e) + (e - d))). pose proof (Rabs_triang (c - e) (e - d)).
  assert (e1 : / 10 ^ 14 = 10 * / 10 ^ 15) by (field; apply pow_nonzero; lra).
  assert (e2 : / 10 ^ 13 = 100 * / 10 ^ 15) by (field; apply pow_nonzero; lra).
  assert (0 < / 10 ^ 15) by (apply Rinv_0_lt_compat, pow_lt; lra). unfold Rdiv in *. lra.
Qed.

(** The integrals are odd. *)
Lemma zero_derivative : forall (f : R -> R), (forall x, derivable_pt_lim f x 0) -> forall x y, f x = f y.
Proof.
  intros f h. assert (hle : forall x y, x <= y -> f x = f y).
  { intros x y hxy. destruct (Req_dec x y) as [->|hne]; [reflexivity|].
    destruct (MVT_cor2 f (fun _ => 0) x y) as (c & hc & _); [lra|intros; apply h|lra]. }
  intros x y. destruct (Rle_dec x y); [apply hle; assumption|symmetry; apply hle; lra].
Qed.

Lemma odd_primitive : forall (F f : R -> R), F 0 = 0 -> (forall x, f (- x) = f x) ->
  (forall x, derivable_pt_lim F x (f x)) -> forall x, F (- x) = - F x.
Proof.
  intros F f h0 he hd x.
  assert (hz : forall y, derivable_pt_lim (fun y => F (- y) + F y) y 0).
  { intro y. replace 0 with (f (- y) * (- 1) + f y) by (rewrite he; ring).
    apply (derivable_pt_lim_plus (fun y => F (- y)) F); [|apply hd].
    apply (derivable_pt_lim_comp (fun y => - y) F); [|apply hd].
    apply (derivable_pt_lim_opp id). apply derivable_pt_lim_id. }
  pose proof (zero_derivative _ hz x 0) as h. cbn beta in h. rewrite Ropp_0, h0 in h. lra.
Qed.

Lemma C_odd : forall C S x, fresnel_integrals C S -> C (- x) = - C x.
Proof.
  intros C S x h. apply (odd_primitive C (fun x => cos (PI / 2 * (x * x)))); [apply h| |apply h].
  intro y. do 2 f_equal. ring.
Qed.
Lemma S_odd : forall C S x, fresnel_integrals C S -> S (- x) = - S x.
Proof.
  intros C S x h. apply (odd_primitive S (fun x => sin (PI / 2 * (x * x)))); [apply h| |apply h].
  intro y. do 2 f_equal. ring.
Qed.

(** Size of the auxiliary functions. *)
Definition dominates (a b : list Z) : bool := pnonneg (padd a (pscale (-1) b)).
Lemma dominates_le : forall a b x, dominates a b = true -> 0 <= x -> pe b x <= pe a x.
Proof. intros a b x h hx. pose proof (pe_nonneg _ x h hx) as hn. rewrite pe_add, pe_scale in hn. lra. Qed.

Lemma ratF_range : forall u, 0 <= u -> 0 <= ratF u <= 4 /\ u * ratF u <= 1.
Proof.
  intros u hu. unfold ratF. pose proof (pe_pos ZFd u eq_refl hu) as hd.
  pose proof (pe_nonneg ZFn u eq_refl hu) as hn.
  assert (h1 : pe ZFn u <= pe (pscale 4 ZFd) u) by (apply dominates_le; [vm_compute; reflexivity|assumption]).
  assert (h2 : pe (0%Z :: ZFn) u <= pe ZFd u) by (apply dominates_le; [vm_compute; reflexivity|assumption]).
  rewrite pe_scale in h1. rewrite pe_cons0 in h2.
  set (n := pe ZFn u) in *. set (d := pe ZFd u) in *. assert (0 < / d) by (apply Rinv_0_lt_compat; lra).
  assert (e : d * / d = 1) by (field; lra). unfold Rdiv. repeat split; nra.
Qed.
Lemma ratG_range : forall u, 0 <= u -> 0 <= ratG u <= 1.
Proof.
  intros u hu. unfold ratG. pose proof (pe_pos ZGd u eq_refl hu) as hd.
  pose proof (pe_nonneg ZGn u eq_refl hu) as hn.
  assert (h1 : pe ZGn u <= pe ZGd u) by (apply dominates_le; [vm_compute; reflexivity|assumption]).
  set (n := pe ZGn u) in *. set (d := pe ZGd u) in *. assert (0 < / d) by (apply Rinv_0_lt_compat; lra).
  assert (e : d * / d = 1) by (field; lra). unfold Rdiv. split; nra.
Qed.

Lemma far_zz : forall x, 36974 < x -> 1000 < zz x.
Proof. intros x hx. unfold zz. pose proof PI_3. nra. Qed.

Lemma far_middle : forall x a b, 36974 < x -> Rabs a <= 1 -> Rabs b <= 1 -> Rabs ((ff x * a + gg x * b) / (PI * x)) <= / (3 * x).
Proof.
  intros x a b hx ha hb. pose proof (far_zz x hx) as hz. pose proof pi_bounds as [hpi _]. unfold pi_lo in hpi. rewrite Q2R_frac in hpi.
  assert (hu : 0 <= uu x) by (apply Rlt_le, uu_pos; lra).
  destruct (ratF_range _ hu) as [h1 h2]. pose proof (ratG_range _ hu) as h3.
  assert (hf : Rabs (ff x) <= 1) by (unfold ff; apply Rabs_le; split; nra).
  assert (hg : Rabs (gg x) <= / 1000).
  { unfold gg. assert (0 < / zz x) by (apply Rinv_0_lt_compat; lra).
    assert (/ zz x <= / 1000) by (apply Rinv_le_contravar; lra). unfold Rdiv. rewrite Rmult_1_l. apply Rabs_le. split; nra. }
  assert (hn : Rabs (ff x * a + gg x * b) <= 1 + / 1000).
  { apply Rle_trans with (1 := Rabs_triang _ _). rewrite !Rabs_mult.
    pose proof (Rabs_pos (ff x)). pose proof (Rabs_pos (gg x)). pose proof (Rabs_pos a). pose proof (Rabs_pos b).
    assert (Rabs (ff x) * Rabs a <= 1) by nra. assert (Rabs (gg x) * Rabs b <= / 1000) by nra. lra. }
  unfold Rdiv. rewrite Rabs_mult, Rabs_inv. rewrite (Rabs_pos_eq (PI * x)) by nra.
  rewrite !Rinv_mult. assert (0 < / x) by (apply Rinv_0_lt_compat; lra).
  rewrite <- Rmult_assoc. apply Rmult_le_compat_r; [lra|].
  apply Rmult_le_reg_r with PI; [lra|]. rewrite Rmult_assoc, Rinv_l, Rmult_1_r by lra. lra.
Qed.

Lemma far_C : forall x, 36974 < x -> Rabs (1 / 2 - med_C x) <= / (3 * x).
Proof.
  intros x hx. unfold med_C. set (s := sin (PI / 2 * (x * x))). set (c := cos (PI / 2 * (x * x))).
  replace (1 / 2 - (1 / 2 + (ff x * s - gg x * c) / (PI * x))) with (- ((ff x * s + gg x * - c) / (PI * x)))
    by (unfold Rdiv; ring).
  rewrite Rabs_Ropp. apply far_middle; [assumption|apply abs_sin|rewrite Rabs_Ropp; apply abs_cos].
Qed.
Lemma far_S : forall x, 36974 < x -> Rabs (1 / 2 - med_S x) <= / (3 * x).
Proof.
  intros x hx. unfold med_S. set (s := sin (PI / 2 * (x * x))). set (c := cos (PI / 2 * (x * x))).
  replace (1 / 2 - (1 / 2 - (ff x * c + gg x * s) / (PI * x))) with ((ff x * c + gg x * s) / (PI * x)) by ring.
  apply far_middle; [assumption|apply abs_cos|apply abs_sin].
Qed.
