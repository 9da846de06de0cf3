(** The formula for small arguments is close to the integrals. *)
From Coq Require Import Reals ZArith QArith Qreals List Lra Lia Psatz Bool.
Import ListNotations.
From Verif Require Import Fresnel_Model Fresnel_Spec Fresnel_Proofs Fresnel_Proofs2 Fresnel_Proofs3 Fresnel_Proofs4.
Local Open Scope R_scope.

(** A polynomial whose reversal has no negative coefficient after a shift by one is not negative
    between 0 and 1. *)
Definition bern (p : list Z) : bool := (0 <=? hd 0 p)%Z && pnonneg (pshift 1 (rev p)).

Lemma pe_rev : forall p z, z <> 0 -> pe (rev p) z * z = z ^ length p * pe p (/ z).
Proof.
  intros p z hz. induction p as [|c p IH]; cbn [rev pe length pow]; [ring|].
  rewrite pe_snoc, rev_length, Rmult_plus_distr_r, IH. field. assumption.
Qed.

Lemma bern_sound : forall p v, bern p = true -> 0 <= v <= 1 -> 0 <= pe p v.
Proof.
  intros p v h hv. apply andb_true_iff in h as [h0 h]. destruct (Req_dec v 0) as [->|hn].
  - apply Z.leb_le, IZR_le in h0. destruct p as [|c p]; cbn [hd pe] in *; lra.
  - assert (hz : 1 <= / v) by (rewrite <- Rinv_1; apply Rinv_le_contravar; lra).
    assert (hy : 0 <= / v - 1) by lra.
    pose proof (pe_nonneg _ (/ v - 1) h hy) as hp. rewrite pe_shift in hp. replace (IZR 1 + (/ v - 1)) with (/ v) in hp by ring.
    pose proof (pe_rev p (/ v) ltac:(lra)) as hr. rewrite Rinv_inv in hr.
    assert (0 < (/ v) ^ length p) by (apply pow_lt; lra).
    assert (0 <= (/ v) ^ length p * pe p v) by (rewrite <- hr; nra).
    apply Rmult_le_reg_l with ((/ v) ^ length p); [assumption|lra].
Qed.

(** The same on the two halves. *)
Definition halves (n : nat) (p : list Z) : bool :=
  (length p <=? S n)%nat && (let q := phom 1 2 n p in bern q && bern (pshift 1 q)).
Lemma halves_sound : forall n p v, halves n p = true -> 0 <= v <= 1 -> 0 <= pe p v.
Proof.
  intros n p v h hv. apply andb_true_iff in h as [hl h]. apply Nat.leb_le in hl. apply andb_true_iff in h as [h1 h2].
  assert (hp : 0 < IZR 2 ^ n) by (apply pow_lt; lra).
  destruct (Rle_dec v (1 / 2)).
  - pose proof (bern_sound _ (2 * v) h1 ltac:(lra)) as k. rewrite pe_hom in k by (lia || assumption).
    replace (1 * (2 * v) / 2) with v in k by field. nra.
  - pose proof (bern_sound _ (2 * v - 1) h2 ltac:(lra)) as k. rewrite pe_shift, pe_hom in k by (lia || assumption).
    replace (1 * (1 + (2 * v - 1)) / 2) with v in k by field. nra.
Qed.

(** Rounded multiples of polynomials. *)
Definition rmul (h q : Z) (l : list Z) : list Z := map (fun c => - (c * h / q))%Z l.

Lemma rmul_close : forall h q l v, (0 < q)%Z -> 0 <= v <= 1 ->
  Rabs (pe (rmul h q l) v + IZR h / IZR q * pe l v) <= IZR (Z.of_nat (length l)).
Proof.
  intros h q l v hq hv. induction l as [|c l IH]; cbn [rmul map pe length].
  - rewrite Rmult_0_r, Rplus_0_r, Rabs_R0. cbn. lra.
  - fold (rmul h q l). rewrite Nat2Z.inj_succ, succ_IZR, opp_IZR.
    destruct (floor_bounds (c * h) q hq) as [h1 h2]. rewrite mult_IZR, plus_IZR in *. apply IZR_lt in hq.
    assert (e : IZR h / IZR q * IZR q = IZR h) by (field; lra).
    set (f := IZR (c * h / q)) in *. set (k := IZR h / IZR q) in *. rewrite <- e in h1, h2.
    assert (k1 : f <= IZR c * k) by (apply Rmult_le_reg_r with (IZR q); [assumption|lra]).
    assert (k2 : IZR c * k < f + 1) by (apply Rmult_lt_reg_r with (IZR q); [assumption|lra]).
    replace (- f + v * pe (rmul h q l) v + k * (IZR c + v * pe l v))
      with ((IZR c * k - f) + v * (pe (rmul h q l) v + k * pe l v)) by ring.
    apply Rle_trans with (1 := Rabs_triang _ _). rewrite Rabs_mult, (Rabs_pos_eq v), (Rabs_pos_eq (IZR c * k - f)) by lra.
    pose proof (Rabs_pos (pe (rmul h q l) v + k * pe l v)). nra.
Qed.

(** The nested polynomial in v, scaled by r, with rounded coefficients, and a bound on the rounding. *)
Fixpoint rnest (d r h b : Z) (n : nat) (k : Z) : list Z :=
  match n with O => [r] | S n => r :: rmul h (b * ((2 * k + 1 + d) * (2 * k + 2 + d))) (rnest d r h b n (k + 1)) end.
Fixpoint rerr (d m : Z) (n : nat) (k : Z) : Z :=
  match n with O => 0 | S n => Z.of_nat (S n) + (m * rerr d m n (k + 1) / ((2 * k + 1 + d) * (2 * k + 2 + d)) + 1) end%Z.

Lemma rnest_length : forall d r h b n k, length (rnest d r h b n k) = S n.
Proof. intros d r h b n. induction n as [|n IH]; intro k; [reflexivity|]. cbn [rnest length]. unfold rmul. rewrite map_length, IH. reflexivity. Qed.

Lemma rnest_close : forall d r h b m n k v, (0 < b)%Z -> (0 <= d)%Z -> (0 <= h <= m * b)%Z -> 0 <= v <= 1 ->
  Rabs (pe (rnest d r h b n (Z.of_nat k)) v - IZR r * nest (IZR d) n k (IZR h / IZR b * v)) <= IZR (rerr d m n (Z.of_nat k)).
Proof.
  intros d r h b m n. induction n as [|n IH]; intros k v hb hd hm hv.
  - cbn [rnest rerr nest pe]. replace (IZR r + v * 0 - IZR r * 1) with 0 by ring. rewrite Rabs_R0. lra.
  - specialize (IH (S k) v hb hd hm hv). cbn [rnest rerr nest pe].
    replace (Z.of_nat k + 1)%Z with (Z.of_nat (S k)) by lia.
    set (q := ((2 * Z.of_nat k + 1 + d) * (2 * Z.of_nat k + 2 + d))%Z).
    assert (hq : (0 < q)%Z) by (unfold q; nia).
    assert (eq : IZR q = (2 * INR k + 1 + IZR d) * (2 * INR k + 2 + IZR d))
      by (unfold q; rewrite mult_IZR, !plus_IZR, !mult_IZR, <- INR_IZR_INZ; reflexivity).
    rewrite <- eq.
    set (l := rnest d r h b n (Z.of_nat (S k))) in *. set (y := nest (IZR d) n (S k) (IZR h / IZR b * v)) in *.
    assert (hbq : (0 < b * q)%Z) by nia.
    pose proof (rmul_close h (b * q) l v hbq hv) as h1. unfold l at 3 in h1. rewrite rnest_length in h1.
    set (E := rerr d m n (Z.of_nat (S k))) in *. rewrite plus_IZR.
    destruct (floor_bounds (m * E) q hq) as [_ h2]. set (f := IZR (m * E / q + 1)) in *.
    rewrite mult_IZR in h1, h2. apply IZR_lt in hb as rb. apply IZR_lt in hq as rq. destruct hm as [hm1 hm2].
    apply IZR_le in hm1. apply IZR_le in hm2. rewrite mult_IZR in hm2.
    set (g := IZR h / (IZR b * IZR q)) in *.
    assert (eg : g * (IZR b * IZR q) = IZR h) by (unfold g; field; lra).
    assert (hg : 0 <= g) by (apply Rmult_le_reg_r with (IZR b * IZR q); [nra|lra]).
    assert (hE : 0 <= IZR E) by (apply Rle_trans with (2 := IH); apply Rabs_pos).
    assert (hgE : g * IZR E <= f).
    { apply Rmult_le_reg_r with (IZR b * IZR q); [nra|]. replace (g * IZR E * (IZR b * IZR q)) with (IZR h * IZR E) by (rewrite <- eg; ring).
      apply Rle_trans with (IZR m * IZR b * IZR E); [apply Rmult_le_compat_r; lra|].
      replace (f * (IZR b * IZR q)) with (f * IZR q * IZR b) by ring.
      replace (IZR m * IZR b * IZR E) with (IZR m * IZR E * IZR b) by ring. apply Rmult_le_compat_r; lra. }
    replace (IZR r + v * pe (rmul h (b * q) l) v - IZR r * (1 - IZR h / IZR b * v / IZR q * y))
      with (v * ((pe (rmul h (b * q) l) v + g * pe l v) - g * (pe l v - IZR r * y))) by (unfold g; field; lra).
    rewrite Rabs_mult, (Rabs_pos_eq v) by lra.
    set (A := pe (rmul h (b * q) l) v + g * pe l v) in *. set (B := pe l v - IZR r * y) in *.
    assert (hAB : Rabs (A - g * B) <= IZR (Z.of_nat (S n)) + f).
    { unfold Rminus. apply Rle_trans with (1 := Rabs_triang _ _). rewrite Rabs_Ropp, Rabs_mult, (Rabs_pos_eq g) by lra.
      assert (g * Rabs B <= g * IZR E) by (apply Rmult_le_compat_l; lra). lra. }
    pose proof (Rabs_pos (A - g * B)). nra.
Qed.

(** The variable is t = 1681/256 v, the scale of the cosine and sine polynomials 10^22. *)
Definition rr : Z := 10 ^ 22.
Definition hn : Z := (41 * qa) * (41 * qa).
Definition hd_ : Z := (16 * qb) * (16 * qb).
Definition TC : list Z := Eval vm_compute in rnest 0 rr hn hd_ 16 0.
Definition TS : list Z := Eval vm_compute in rmul (- qa) qb (rnest 1 rr hn hd_ 16 0).

Lemma list_C : rnest 0 rr hn hd_ 16 (Z.of_nat 0) = TC.
Proof. vm_compute. reflexivity. Qed.
Lemma list_S : rmul (- qa) qb (rnest 1 rr hn hd_ 16 (Z.of_nat 0)) = TS.
Proof. vm_compute. reflexivity. Qed.

Lemma hn_range : (0 <= hn <= 17 * hd_)%Z.
Proof. split; apply Z.leb_le; vm_compute; reflexivity. Qed.

Lemma h_value : forall t, IZR hn / IZR hd_ * (256 / 1681 * t) = half_pi * half_pi * t.
Proof.
  intro t. unfold hn, hd_, half_pi. rewrite !mult_IZR. assert (0 < IZR qb) by (apply IZR_lt; reflexivity). field. lra.
Qed.

Lemma TC_close : forall t, 0 <= t <= 1681 / 256 ->
  Rabs (pe TC (256 / 1681 * t) - IZR rr * nest 0 16 0 (half_pi * half_pi * t)) <= 1000.
Proof.
  intros t ht. rewrite <- h_value, <- list_C.
  apply Rle_trans with (IZR (rerr 0 17 16 (Z.of_nat 0))).
  - apply (rnest_close 0 rr hn hd_ 17 16 0); [reflexivity|lia|apply hn_range|lra].
  - apply IZR_le, Z.leb_le. vm_compute. reflexivity.
Qed.

Lemma TS_close : forall t, 0 <= t <= 1681 / 256 ->
  Rabs (pe TS (256 / 1681 * t) - IZR rr * (half_pi * nest 1 16 0 (half_pi * half_pi * t))) <= 1000.
Proof.
  intros t ht. rewrite <- h_value, <- list_S.
  set (v := 256 / 1681 * t). assert (hv : 0 <= v <= 1) by (unfold v; lra).
  set (l := rnest 1 rr hn hd_ 16 (Z.of_nat 0)).
  assert (h1 : Rabs (pe l v - IZR rr * nest 1 16 0 (IZR hn / IZR hd_ * v)) <= 200).
  { apply Rle_trans with (IZR (rerr 1 17 16 (Z.of_nat 0))).
    - apply (rnest_close 1 rr hn hd_ 17 16 0); [reflexivity|lia|apply hn_range|assumption].
    - apply IZR_le, Z.leb_le. vm_compute. reflexivity. }
  assert (h2 := rmul_close (- qa) qb l v eq_refl hv). unfold l at 3 in h2. rewrite rnest_length in h2.
  change (Z.of_nat 17) with 17%Z in h2. rewrite opp_IZR in h2.
  set (y := nest 1 16 0 (IZR hn / IZR hd_ * v)) in *. unfold half_pi. 
  assert (hb : 0 < IZR qb) by (apply IZR_lt; reflexivity).
  set (k := IZR qa / IZR qb). assert (ek : - IZR qa / IZR qb = - k) by (unfold k; field; lra). rewrite ek in h2.
  assert (hk : 0 <= k <= 2).
  { split; apply Rmult_le_reg_r with (IZR qb); try assumption; replace (k * IZR qb) with (IZR qa) by (unfold k; field; lra).
    - rewrite Rmult_0_l. apply IZR_le, Z.leb_le. reflexivity.
    - rewrite <- mult_IZR. apply IZR_le, Z.leb_le. vm_compute. reflexivity. }
  set (A := pe (rmul (- qa) qb l) v) in *. set (B := pe l v) in *.
  replace (A - IZR rr * (k * y)) with ((A + - k * B) + k * (B - IZR rr * y)) by ring.
  apply Rle_trans with (1 := Rabs_triang _ _). rewrite Rabs_mult, (Rabs_pos_eq k) by lra.
  pose proof (Rabs_pos (B - IZR rr * y)). nra.
Qed.

Lemma scaled_arg : forall t, 1681 * (256 / 1681 * t) / 256 = t.
Proof. intro t. field. Qed.

(** The denominators and the numerators of the slopes in v, and what is to be shown of them. *)
Definition QC : list Z := Eval vm_compute in (let q := phom 1681 256 6 ZCd in pmul q q).
Definition SC : list Z := Eval vm_compute in phom 1681 256 12 (slope 1 ZCn ZCd).
Definition QS : list Z := Eval vm_compute in (let q := phom 1681 256 6 ZSd in pmul q q).
Definition SS : list Z := Eval vm_compute in phom 1681 256 12 (slope 3 ZSn ZSd).
Lemma QC_eq : (let q := phom 1681 256 6 ZCd in pmul q q) = QC.
Proof. vm_compute. reflexivity. Qed.
Lemma SC_eq : phom 1681 256 12 (slope 1 ZCn ZCd) = SC.
Proof. vm_compute. reflexivity. Qed.
Lemma QS_eq : (let q := phom 1681 256 6 ZSd in pmul q q) = QS.
Proof. vm_compute. reflexivity. Qed.
Lemma SS_eq : phom 1681 256 12 (slope 3 ZSn ZSd) = SS.
Proof. vm_compute. reflexivity. Qed.

Definition near (m : Z) (Q T S : list Z) : bool :=
  let d := pscale rr Q in let n := pscale m (padd (pmul Q T) (pscale (- rr) S)) in
  bern (padd d n) && bern (padd d (pscale (-1) n)).

Lemma check_C : near (5 * 10 ^ 14) QC TC SC = true.
Proof. vm_compute. reflexivity. Qed.
Lemma check_S : near (5 * 10 ^ 14) QS TS SS = true.
Proof. vm_compute. reflexivity. Qed.

Lemma near_sound : forall m Q T S v, near m Q T S = true -> 0 <= v <= 1 ->
  Rabs (IZR m * (pe Q v * pe T v - IZR rr * pe S v)) <= IZR rr * pe Q v.
Proof.
  intros m Q T S v h hv. unfold near in h. cbv zeta in h. apply andb_true_iff in h as [h1 h2].
  apply (bern_sound _ v) in h1; [|assumption]. apply (bern_sound _ v) in h2; [|assumption].
  rewrite !pe_add, !pe_scale, !pe_add, pe_mul, pe_scale, opp_IZR in h1.
  rewrite !pe_add, !pe_scale, !pe_add, pe_mul, pe_scale, opp_IZR in h2.
  apply Rabs_le. lra.
Qed.

Lemma ratio_close : forall r m q T s e a, 0 < r -> 0 < m -> 0 < q -> Rabs (m * (q * T - r * s)) <= r * q -> Rabs (T - r * a) <= e ->
  Rabs (a - s / q) <= / m + e / r.
Proof.
  intros r m q T s e a hr hm hq h1 h2.
  rewrite Rabs_mult, (Rabs_pos_eq m) in h1 by lra.
  replace (a - s / q) with (/ r * - (T - r * a) + / (r * q) * (q * T - r * s)) by (field; lra).
  apply Rle_trans with (1 := Rabs_triang _ _). rewrite !Rabs_mult, Rabs_Ropp.
  assert (0 < / r) by (apply Rinv_0_lt_compat; assumption). assert (0 < / (r * q)) by (apply Rinv_0_lt_compat; nra).
  rewrite (Rabs_pos_eq (/ r)), (Rabs_pos_eq (/ (r * q))) by lra.
  assert (k1 : / r * Rabs (T - r * a) <= e / r) by (unfold Rdiv; rewrite (Rmult_comm e); apply Rmult_le_compat_l; lra).
  assert (k2 : / (r * q) * Rabs (q * T - r * s) <= / m).
  { apply Rmult_le_reg_l with (m * (r * q)); [apply Rmult_lt_0_compat; nra|].
    replace (m * (r * q) * (/ (r * q) * Rabs (q * T - r * s))) with (m * Rabs (q * T - r * s)) by (field; nra).
    replace (m * (r * q) * / m) with (r * q) by (field; lra). assumption. }
  lra.
Qed.

Lemma total_error : / IZR (5 * 10 ^ 14) + 1000 / IZR rr <= / 10 ^ 14 / 4.
Proof.
  unfold rr. change (5 * 10 ^ 14)%Z with 500000000000000%Z. change (10 ^ 22)%Z with 10000000000000000000000%Z.
  replace (10 ^ 14) with 100000000000000 by ring. lra.
Qed.

Lemma same_ratio : forall s q c, c <> 0 -> q <> 0 -> c ^ 12 * s / (c ^ 6 * q * (c ^ 6 * q)) = s / (q * q).
Proof. intros s q c hc hq. field. split; [assumption|exact hc]. Qed.

Lemma bound_C : forall t, 0 <= t <= 1681 / 256 ->
  Rabs (nest 0 16 0 (half_pi * half_pi * t) - pe (slope 1 ZCn ZCd) t / (pe ZCd t * pe ZCd t)) <= / 10 ^ 14 / 4.
Proof.
  intros t ht. set (v := 256 / 1681 * t). assert (hv : 0 <= v <= 1) by (unfold v; lra).
  pose proof (near_sound _ _ _ _ v check_C hv) as h1. pose proof (TC_close t ht) as h2. fold v in h2.
  pose proof (pe_pos ZCd t eq_refl (proj1 ht)) as hq.
  rewrite <- SC_eq, <- QC_eq in h1. cbv zeta in h1. rewrite pe_mul in h1.
  rewrite (pe_hom 1681 256 ZCd 6 v eq_refl), (pe_hom 1681 256 (slope 1 ZCn ZCd) 12 v eq_refl) in h1
    by (apply Nat.leb_le; vm_compute; reflexivity).
  assert (ev : 1681 * v / 256 = t) by apply scaled_arg. rewrite !ev in h1.
  rewrite <- (same_ratio _ _ 256) by lra.
  apply Rle_trans with (2 := total_error). apply (ratio_close (IZR rr) (IZR (5 * 10 ^ 14)) _ (pe TC v)); [apply IZR_lt; reflexivity|apply IZR_lt; reflexivity| |exact h1|exact h2].
  assert (0 < 256 ^ 6) by (apply pow_lt; lra). apply Rmult_lt_0_compat; nra.
Qed.

Lemma bound_S : forall t, 0 <= t <= 1681 / 256 ->
  Rabs (half_pi * nest 1 16 0 (half_pi * half_pi * t) - pe (slope 3 ZSn ZSd) t / (pe ZSd t * pe ZSd t)) <= / 10 ^ 14 / 4.
Proof.
  intros t ht. set (v := 256 / 1681 * t). assert (hv : 0 <= v <= 1) by (unfold v; lra).
  pose proof (near_sound _ _ _ _ v check_S hv) as h1. pose proof (TS_close t ht) as h2. fold v in h2.
  pose proof (pe_pos ZSd t eq_refl (proj1 ht)) as hq.
  rewrite <- SS_eq, <- QS_eq in h1. cbv zeta in h1. rewrite pe_mul in h1.
  rewrite (pe_hom 1681 256 ZSd 6 v eq_refl), (pe_hom 1681 256 (slope 3 ZSn ZSd) 12 v eq_refl) in h1
    by (apply Nat.leb_le; vm_compute; reflexivity).
  assert (ev : 1681 * v / 256 = t) by apply scaled_arg. rewrite !ev in h1.
  rewrite <- (same_ratio _ _ 256) by lra.
  apply Rle_trans with (2 := total_error). apply (ratio_close (IZR rr) (IZR (5 * 10 ^ 14)) _ (pe TS v)); [apply IZR_lt; reflexivity|apply IZR_lt; reflexivity| |exact h1|exact h2].
  assert (0 < 256 ^ 6) by (apply pow_lt; lra). apply Rmult_lt_0_compat; nra.
Qed.

Lemma half_pi_bounds : 0 < half_pi <= 1571 / 1000.
Proof.
  unfold half_pi, qa, qb. change (10 ^ 20)%Z with 100000000000000000000%Z. split; lra.
Qed.

Lemma arg_range : forall y, 0 <= y <= 41 / 16 -> 0 <= half_pi * y <= 403 / 100.
Proof. intros y hy. pose proof half_pi_bounds. split; nra. Qed.

Lemma arg_close : forall y, 0 <= y <= 41 / 16 -> Rabs (PI / 2 * y - half_pi * y) <= / 10 ^ 16.
Proof.
  intros y hy. replace (PI / 2 * y - half_pi * y) with ((PI / 2 - half_pi) * y) by ring.
  rewrite Rabs_mult, (Rabs_pos_eq y) by lra. pose proof half_pi_close as h.
  assert (e : / IZR (10 ^ 20) <= / 10 ^ 16 * / 3).
  { change (10 ^ 20)%Z with 100000000000000000000%Z. lra. }
  pose proof (Rabs_pos (PI / 2 - half_pi)). nra.
Qed.

(** cos(pi/2 y) and its polynomial. *)
Lemma cos_close : forall y, 0 <= y <= 41 / 16 -> Rabs (cos (PI / 2 * y) - nest 0 16 0 (half_pi * half_pi * (y * y))) <= 2 / 10 ^ 16.
Proof.
  intros y hy. pose proof (arg_range y hy) as hr.
  replace (half_pi * half_pi * (y * y)) with ((half_pi * y) * (half_pi * y)) by ring. rewrite <- cos_poly_nest.
  pose proof (cos_lipschitz (PI / 2 * y) (half_pi * y)) as h1. pose proof (arg_close y hy) as h2.
  pose proof (cos_poly_error 16 (half_pi * y) (proj1 hr)) as h3.
  assert (h4 : Rabs (coef 0 17 * (half_pi * y) ^ (2 * 17)) <= / 10 ^ 16)
    by (apply (last_term 0 17 (2 * 17)); [lia|assumption|vm_compute; reflexivity]).
  replace (cos (PI / 2 * y) - cos_poly 16 (half_pi * y))
    with ((cos (PI / 2 * y) - cos (half_pi * y)) + (cos (half_pi * y) - cos_poly 16 (half_pi * y))) by ring.
  pose proof (Rabs_triang (cos (PI / 2 * y) - cos (half_pi * y)) (cos (half_pi * y) - cos_poly 16 (half_pi * y))).
  unfold Rdiv. lra.
Qed.

Lemma sin_close : forall y, 0 <= y <= 41 / 16 -> Rabs (sin (PI / 2 * y) - y * (half_pi * nest 1 16 0 (half_pi * half_pi * (y * y)))) <= 2 / 10 ^ 16.
Proof.
  intros y hy. pose proof (arg_range y hy) as hr.
  replace (half_pi * half_pi * (y * y)) with ((half_pi * y) * (half_pi * y)) by ring.
  replace (y * (half_pi * nest 1 16 0 (half_pi * y * (half_pi * y)))) with (sin_poly 16 (half_pi * y)) by (rewrite sin_poly_nest; ring).
  pose proof (sin_lipschitz (PI / 2 * y) (half_pi * y)) as h1. pose proof (arg_close y hy) as h2.
  pose proof (sin_poly_error 16 (half_pi * y) (proj1 hr)) as h3.
  assert (h4 : Rabs (coef 1 17 * (half_pi * y) ^ (2 * 17 + 1)) <= / 10 ^ 16)
    by (apply (last_term 1 17 (2 * 17 + 1)); [lia|assumption|vm_compute; reflexivity]).
  replace (sin (PI / 2 * y) - sin_poly 16 (half_pi * y))
    with ((sin (PI / 2 * y) - sin (half_pi * y)) + (sin (half_pi * y) - sin_poly 16 (half_pi * y))) by ring.
  pose proof (Rabs_triang (sin (PI / 2 * y) - sin (half_pi * y)) (sin (half_pi * y) - sin_poly 16 (half_pi * y))).
  unfold Rdiv. lra.
Qed.

(** A function that vanishes at zero and has a small derivative stays small. *)
Lemma grows_slowly : forall (f f' : R -> R) e x, 0 <= x -> f 0 = 0 ->
  (forall y, 0 <= y <= x -> derivable_pt_lim f y (f' y)) ->
  (forall y, 0 <= y <= x -> Rabs (f' y) <= e) -> Rabs (f x) <= e * x.
Proof.
  intros f f' e x hx h0 hd hb. destruct (Req_dec x 0) as [->|hne].
  - rewrite h0, Rabs_R0. lra.
  - destruct (MVT_cor2 f f' 0 x) as (c & hc & h1); [lra|assumption|].
    rewrite h0, !Rminus_0_r in hc. rewrite hc, Rabs_mult, (Rabs_pos_eq x) by lra.
    assert (Rabs (f' c) <= e) by (apply hb; lra). nra.
Qed.

Definition e_small : R := 6 / 10 ^ 15.

Lemma square_range : forall x y, 0 <= y <= x -> x * x <= 41 / 16 -> 0 <= y * y <= 41 / 16 /\ 0 <= quart y <= 1681 / 256.
Proof. intros x y hy hx. unfold quart. split; [split; nra|]. assert (0 <= y * y <= 41 / 16) by (split; nra). split; nra. Qed.

Lemma small_range : forall x, 0 <= x -> x * x <= 41 / 16 -> x <= 17 / 10.
Proof. intros x h1 h2. nra. Qed.

Lemma small_C_error : forall C S x, fresnel_integrals C S -> 0 <= x -> x * x <= 41 / 16 -> Rabs (C x - small_C x) <= e_small.
Proof.
  intros C S x hf hx hxx.
  apply Rle_trans with (3 / 10 ^ 15 * x).
  - apply (grows_slowly (fun x => C x - small_C x)
      (fun y => cos (PI / 2 * (y * y)) - pe (slope 1 ZCn ZCd) (quart y) / (pe ZCd (quart y) * pe ZCd (quart y)))); [assumption| | |].
    + rewrite (C_zero _ _ hf). unfold small_C. ring.
    + intros y hy. apply (derivable_pt_lim_minus C small_C); [apply (C_derivative _ _ hf)|apply small_C_derivative].
    + intros y hy. destruct (square_range x y hy hxx) as [h1 h2].
      pose proof (cos_close (y * y) h1) as h3. pose proof (bound_C (quart y) h2) as h4. unfold quart in h4 at 1.
      set (a := cos (PI / 2 * (y * y))) in *. set (b := nest 0 16 0 (half_pi * half_pi * (y * y * (y * y)))) in *.
      set (d := pe (slope 1 ZCn ZCd) (quart y) / (pe ZCd (quart y) * pe ZCd (quart y))) in *.
      replace (a - d) with ((a - b) + (b - d)) by ring. pose proof (Rabs_triang (a - b) (b - d)).
      assert (10 ^ 15 = 10 * 10 ^ 14) by ring. assert (10 ^ 16 = 100 * 10 ^ 14) by ring. assert (0 < 10 ^ 14) by (apply pow_lt; lra).
      assert (/ 10 ^ 14 = 10 / 10 ^ 15) by lra. assert (2 / 10 ^ 16 = 2 / 10 / 10 ^ 15) by lra. unfold Rdiv in *. lra.
  - unfold e_small. pose proof (small_range x hx hxx). assert (0 < / 10 ^ 15) by (apply Rinv_0_lt_compat, pow_lt; lra). unfold Rdiv. nra.
Qed.

Lemma small_S_error : forall C S x, fresnel_integrals C S -> 0 <= x -> x * x <= 41 / 16 -> Rabs (S x - small_S x) <= 2 * e_small.
Proof.
  intros C S x hf hx hxx.
  apply Rle_trans with (7 / 10 ^ 15 * x).
  - apply (grows_slowly (fun x => S x - small_S x)
      (fun y => sin (PI / 2 * (y * y)) - y * y * (pe (slope 3 ZSn ZSd) (quart y) / (pe ZSd (quart y) * pe ZSd (quart y))))); [assumption| | |].
    + rewrite (S_zero _ _ hf). unfold small_S. ring.
    + intros y hy. apply (derivable_pt_lim_minus S small_S); [apply (S_derivative _ _ hf)|apply small_S_derivative].
    + intros y hy. destruct (square_range x y hy hxx) as [h1 h2].
      pose proof (sin_close (y * y) h1) as h3. pose proof (bound_S (quart y) h2) as h4. unfold quart in h4 at 1.
      set (a := sin (PI / 2 * (y * y))) in *. set (b := half_pi * nest 1 16 0 (half_pi * half_pi * (y * y * (y * y)))) in *.
      set (d := pe (slope 3 ZSn ZSd) (quart y) / (pe ZSd (quart y) * pe ZSd (quart y))) in *.
      replace (a - y * y * d) with ((a - y * y * b) + (y * y) * (b - d)) by ring.
      pose proof (Rabs_triang (a - y * y * b) ((y * y) * (b - d))) as ht. rewrite Rabs_mult, (Rabs_pos_eq (y * y)) in ht by lra.
      assert (10 ^ 15 = 10 * 10 ^ 14) by ring. assert (10 ^ 16 = 100 * 10 ^ 14) by ring. assert (0 < 10 ^ 14) by (apply pow_lt; lra).
      assert (/ 10 ^ 14 = 10 / 10 ^ 15) by lra. assert (2 / 10 ^ 16 = 2 / 10 / 10 ^ 15) by lra.
      assert (hm : y * y * Rabs (b - d) <= 41 / 16 * (/ 10 ^ 14 / 4)) by (pose proof (Rabs_pos (b - d)); nra).
      unfold Rdiv in *. lra.
  - unfold e_small. pose proof (small_range x hx hxx). assert (0 < / 10 ^ 15) by (apply Rinv_0_lt_compat, pow_lt; lra). unfold Rdiv. nra.
Qed.
