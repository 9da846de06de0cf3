(** The rational functions of the code as quotients of integer polynomials; the formula for small
    arguments. *)
From Coq Require Import Reals ZArith QArith Qreals List Lra Lia Psatz Bool.
Import ListNotations.
From Verif Require Import Fresnel_Model Fresnel_Spec Fresnel_Proofs Fresnel_Proofs2 Fresnel_Proofs3.
Local Open Scope R_scope.

(** A table scaled by d, lowest degree first. *)
Definition zc (d : Z) (q : Q) : Z := (Qnum q * d / Zpos (Qden q))%Z.
Definition zl (d : Z) (l : list Q) : list Z := rev (map (zc d) l).
Definition exactly (d : Z) (l : list Q) : bool := forallb (fun q => (zc d q * Zpos (Qden q) =? Qnum q * d)%Z) l.

Lemma pe_snoc : forall p c x, pe (p ++ [c]) x = pe p x + IZR c * x ^ length p.
Proof.
  induction p as [|a p IH]; intros c x; cbn [app pe length pow]; [ring|]. rewrite IH. ring.
Qed.

Lemma zc_value : forall d q, (zc d q * Zpos (Qden q) =? Qnum q * d)%Z = true -> IZR (zc d q) = IZR d * Q2R q.
Proof.
  intros d q h. apply Z.eqb_eq, IZR_eq in h. rewrite !mult_IZR in h. unfold Q2R.
  assert (IZR (Zpos (Qden q)) <> 0) by (apply not_0_IZR; lia).
  apply Rmult_eq_reg_r with (IZR (Zpos (Qden q))); [|assumption]. rewrite h. field. assumption.
Qed.

Lemma horner_value : forall d l x ans, (0 < d)%Z -> exactly d l = true ->
  horner x (reals l) (length l) ans = Some (ans * x ^ length l + pe (zl d l) x / IZR d).
Proof.
  intros d l x. induction l as [|c l IH]; intros ans hd h; cbn [length horner reals map].
  - cbn. f_equal. unfold Rdiv. ring.
  - cbn [exactly forallb] in h. apply andb_true_iff in h as [hc h].
    fold (reals l). rewrite (IH _ hd h). f_equal. unfold zl. cbn [map rev]. rewrite pe_snoc, rev_length, map_length.
    apply zc_value in hc. rewrite hc. assert (IZR d <> 0) by (apply not_0_IZR; lia). cbn [pow]. field. assumption.
Qed.

Lemma polevl_value : forall d l x n, (0 < d)%Z -> exactly d l = true -> length l = S n -> (0 < n)%nat ->
  polevl x (reals l) n = Some (pe (zl d l) x / IZR d).
Proof.
  intros d l x n hd h hl hn. destruct l as [|c l]; [discriminate|]. cbn [length] in hl. injection hl as hl.
  destruct n as [|n]; [lia|]. cbn [polevl reals map]. fold (reals l). rewrite <- hl.
  cbn [exactly forallb] in h. apply andb_true_iff in h as [hc h].
  rewrite (horner_value d l x _ hd h). f_equal. unfold zl. cbn [map rev]. rewrite pe_snoc, rev_length, map_length.
  apply zc_value in hc. rewrite hc. assert (IZR d <> 0) by (apply not_0_IZR; lia). field. assumption.
Qed.

Lemma p1evl_value : forall d l x n, (0 < d)%Z -> exactly d l = true -> length l = n -> (1 < n)%nat ->
  p1evl x (reals l) n = Some (pe (zl d (1%Q :: l)) x / IZR d).
Proof.
  intros d l x n hd h hl hn. destruct l as [|c l]; [cbn in hl; lia|]. cbn [length] in hl.
  destruct n as [|[|n]]; [lia|lia|]. injection hl as hl. cbn [p1evl reals map]. fold (reals l).
  cbn [exactly forallb] in h. apply andb_true_iff in h as [hc h].
  replace (S (S n) - 1)%nat with (S n) by lia. rewrite <- hl.
  rewrite (horner_value d l x _ hd h). f_equal. unfold zl. cbn [map rev].
  rewrite !pe_snoc, app_length, !rev_length, map_length. cbn [length]. rewrite Nat.add_1_r. cbn [pow].
  apply zc_value in hc. rewrite hc.
  replace (zc d 1) with d by (unfold zc; cbn; rewrite Z.div_1_r; destruct d; reflexivity).
  assert (IZR d <> 0) by (apply not_0_IZR; lia). field. assumption.
Qed.

(** The tables. *)
Definition ZSn : list Z := Eval vm_compute in zl (10 ^ 18) kSn.
Definition ZSd : list Z := Eval vm_compute in zl (10 ^ 18) (1%Q :: kSd).
Definition ZCn : list Z := Eval vm_compute in zl (10 ^ 32) kCn.
Definition ZCd : list Z := Eval vm_compute in zl (10 ^ 32) kCd.
Definition ZFn : list Z := Eval vm_compute in zl (10 ^ 40) kFn.
Definition ZFd : list Z := Eval vm_compute in zl (10 ^ 40) (1%Q :: kFd).
Definition ZGn : list Z := Eval vm_compute in zl (10 ^ 42) kGn.
Definition ZGd : list Z := Eval vm_compute in zl (10 ^ 42) (1%Q :: kGd).

Lemma table_Sn : forall t, polevl t (reals kSn) 5 = Some (pe ZSn t / IZR (10 ^ 18)).
Proof. intro t. apply (polevl_value (10 ^ 18) kSn t 5); vm_compute; reflexivity || lia. Qed.
Lemma table_Sd : forall t, p1evl t (reals kSd) 6 = Some (pe ZSd t / IZR (10 ^ 18)).
Proof. intro t. apply (p1evl_value (10 ^ 18) kSd t 6); vm_compute; reflexivity || lia. Qed.
Lemma table_Cn : forall t, polevl t (reals kCn) 5 = Some (pe ZCn t / IZR (10 ^ 32)).
Proof. intro t. apply (polevl_value (10 ^ 32) kCn t 5); vm_compute; reflexivity || lia. Qed.
Lemma table_Cd : forall t, polevl t (reals kCd) 6 = Some (pe ZCd t / IZR (10 ^ 32)).
Proof. intro t. apply (polevl_value (10 ^ 32) kCd t 6); vm_compute; reflexivity || lia. Qed.
Lemma table_Fn : forall t, polevl t (reals kFn) 9 = Some (pe ZFn t / IZR (10 ^ 40)).
Proof. intro t. apply (polevl_value (10 ^ 40) kFn t 9); vm_compute; reflexivity || lia. Qed.
Lemma table_Fd : forall t, p1evl t (reals kFd) 10 = Some (pe ZFd t / IZR (10 ^ 40)).
Proof. intro t. apply (p1evl_value (10 ^ 40) kFd t 10); vm_compute; reflexivity || lia. Qed.
Lemma table_Gn : forall t, polevl t (reals kGn) 10 = Some (pe ZGn t / IZR (10 ^ 42)).
Proof. intro t. apply (polevl_value (10 ^ 42) kGn t 10); vm_compute; reflexivity || lia. Qed.
Lemma table_Gd : forall t, p1evl t (reals kGd) 11 = Some (pe ZGd t / IZR (10 ^ 42)).
Proof. intro t. apply (p1evl_value (10 ^ 42) kGd t 11); vm_compute; reflexivity || lia. Qed.

(** The denominators are positive. *)
Definition positive_poly (p : list Z) : bool := match p with c :: p => (0 <? c)%Z && pnonneg p | [] => false end.
Lemma pe_pos : forall p x, positive_poly p = true -> 0 <= x -> 0 < pe p x.
Proof.
  intros [|c p] x h hx; [discriminate|]. apply andb_true_iff in h as [hc h]. apply Z.ltb_lt in hc.
  pose proof (pe_positive c p x hc h hx). apply IZR_lt in hc. lra.
Qed.

Definition quart (x : R) : R := x * x * (x * x).
Definition small_S (x : R) : R := x * (x * x) * (pe ZSn (quart x) / pe ZSd (quart x)).
Definition small_C (x : R) : R := x * (pe ZCn (quart x) / pe ZCd (quart x)).

Lemma quart_pos : forall x, 0 <= quart x.
Proof. intro x. unfold quart. nra. Qed.

Lemma scaled_ratio : forall a b d, 0 < d -> b <> 0 -> (a / d) / (b / d) = a / b.
Proof. intros a b d hd hb. field. lra. Qed.

Lemma impl_small_value : forall x, impl_small_x x = Some (small_S x, small_C x).
Proof.
  intro x. unfold impl_small_x. cbv zeta. fold (quart x).
  rewrite table_Sn, table_Sd, table_Cn, table_Cd. unfold small_S, small_C.
  pose proof (pe_pos ZSd (quart x) eq_refl (quart_pos x)). pose proof (pe_pos ZCd (quart x) eq_refl (quart_pos x)).
  assert (0 < IZR (10 ^ 18)) by (apply IZR_lt; reflexivity). assert (0 < IZR (10 ^ 32)) by (apply IZR_lt; reflexivity).
  f_equal. f_equal; field; lra.
Qed.

(** Derivatives. *)
Definition wronskian (p q : list Z) : list Z := padd (pmul (pder p) q) (pscale (-1) (pmul p (pder q))).

Lemma ratio_derivative : forall p q t, pe q t <> 0 ->
  derivable_pt_lim (fun t => pe p t / pe q t) t (pe (wronskian p q) t / (pe q t * pe q t)).
Proof.
  intros p q t h.
  replace (pe (wronskian p q) t / (pe q t * pe q t)) with ((pe (pder p) t * pe q t - pe (pder q) t * pe p t) / Rsqr (pe q t)).
  - apply (derivable_pt_lim_div (pe p) (pe q)); [apply pe_derivative|apply pe_derivative|assumption].
  - unfold wronskian, Rsqr. rewrite pe_add, pe_scale, !pe_mul. field. assumption.
Qed.

Lemma quart_derivative : forall x, derivable_pt_lim quart x (4 * (x * (x * x))).
Proof.
  intro x. replace (4 * (x * (x * x))) with ((1 * x + x * 1) * (x * x) + (x * x) * (1 * x + x * 1)) by ring.
  apply (derivable_pt_lim_mult (fun x => x * x) (fun x => x * x));
    apply (derivable_pt_lim_mult id id); apply derivable_pt_lim_id.
Qed.

Lemma ratio_quart_derivative : forall p q x, pe q (quart x) <> 0 ->
  derivable_pt_lim (fun x => pe p (quart x) / pe q (quart x)) x
    (pe (wronskian p q) (quart x) / (pe q (quart x) * pe q (quart x)) * (4 * (x * (x * x)))).
Proof.
  intros p q x h. apply (derivable_pt_lim_comp quart (fun t => pe p t / pe q t)); [apply quart_derivative|apply ratio_derivative; assumption].
Qed.

(** Numerator of the derivative of x^j p(x^4) / q(x^4), without the factor x^(j-1). *)
Definition slope (j : Z) (p q : list Z) : list Z := padd (pscale j (pmul p q)) (pscale 4 (0%Z :: wronskian p q)).

Lemma small_C_derivative : forall x,
  derivable_pt_lim small_C x (pe (slope 1 ZCn ZCd) (quart x) / (pe ZCd (quart x) * pe ZCd (quart x))).
Proof.
  intro x. pose proof (pe_pos ZCd (quart x) eq_refl (quart_pos x)) as hp.
  replace (pe (slope 1 ZCn ZCd) (quart x) / (pe ZCd (quart x) * pe ZCd (quart x)))
    with (1 * (pe ZCn (quart x) / pe ZCd (quart x))
          + x * (pe (wronskian ZCn ZCd) (quart x) / (pe ZCd (quart x) * pe ZCd (quart x)) * (4 * (x * (x * x))))).
  - apply (derivable_pt_lim_mult id (fun x => pe ZCn (quart x) / pe ZCd (quart x)));
      [apply derivable_pt_lim_id|apply ratio_quart_derivative; lra].
  - unfold slope. rewrite pe_add, !pe_scale, pe_cons0, pe_mul. 
    set (w := pe (wronskian ZCn ZCd) (quart x)). set (q := pe ZCd (quart x)) in *. set (p := pe ZCn (quart x)).
    unfold quart. field. lra.
Qed.

Lemma small_S_derivative : forall x,
  derivable_pt_lim small_S x (x * x * (pe (slope 3 ZSn ZSd) (quart x) / (pe ZSd (quart x) * pe ZSd (quart x)))).
Proof.
  intro x. pose proof (pe_pos ZSd (quart x) eq_refl (quart_pos x)) as hp.
  replace (x * x * (pe (slope 3 ZSn ZSd) (quart x) / (pe ZSd (quart x) * pe ZSd (quart x))))
    with ((1 * (x * x) + x * (1 * x + x * 1)) * (pe ZSn (quart x) / pe ZSd (quart x))
          + x * (x * x) * (pe (wronskian ZSn ZSd) (quart x) / (pe ZSd (quart x) * pe ZSd (quart x)) * (4 * (x * (x * x))))).
  - apply (derivable_pt_lim_mult (fun x => x * (x * x)) (fun x => pe ZSn (quart x) / pe ZSd (quart x))).
    + apply (derivable_pt_lim_mult id (fun x => x * x)); [apply derivable_pt_lim_id|].
      apply (derivable_pt_lim_mult id id); apply derivable_pt_lim_id.
    + apply ratio_quart_derivative. lra.
  - unfold slope. rewrite pe_add, !pe_scale, pe_cons0, pe_mul.
    set (w := pe (wronskian ZSn ZSd) (quart x)). set (q := pe ZSd (quart x)) in *. set (p := pe ZSn (quart x)).
    unfold quart. field. lra.
Qed.

(** An approximation of pi / 2. *)
Definition qa : Z := 157079632679489661923.
Definition qb : Z := 10 ^ 20.
Definition half_pi : R := IZR qa / IZR qb.

Lemma half_pi_close : Rabs (PI / 2 - half_pi) <= / IZR (10 ^ 20).
Proof.
  pose proof pi_bounds as [h1 h2]. unfold half_pi.
  assert (e1 : Q2R pi_lo = 2 * (IZR qa / IZR qb)) by (unfold Q2R, pi_lo, qa, qb; cbn [Qnum Qden]; change (10 ^ 20)%Z with 100000000000000000000%Z; field).
  assert (e2 : Q2R pi_hi = 2 * (IZR qa / IZR qb) + / IZR (10 ^ 20))
    by (unfold Q2R, pi_hi, qa, qb; cbn [Qnum Qden]; change (10 ^ 20)%Z with 100000000000000000000%Z; field).
  assert (0 < / IZR (10 ^ 20)) by (apply Rinv_0_lt_compat, IZR_lt; reflexivity).
  apply Rabs_le. lra.
Qed.

(** The cosine and the sine move by at most as much as their argument. *)
Lemma cos_lipschitz : forall a b, Rabs (cos a - cos b) <= Rabs (a - b).
Proof.
  intros a b. rewrite form2.
  replace (-2 * sin ((a - b) / 2) * sin ((a + b) / 2)) with ((-2 * sin ((a + b) / 2)) * sin ((a - b) / 2)) by ring.
  rewrite !Rabs_mult. rewrite (Rabs_left (-2)) by lra.
  assert (h1 : Rabs (sin ((a + b) / 2)) <= 1) by (apply Rabs_le; apply SIN_bound).
  assert (h2 : Rabs (sin ((a - b) / 2)) <= Rabs ((a - b) / 2)).
  { assert (hs : forall y, 0 <= y -> Rabs (sin y) <= y).
    { intros y hy. destruct (Rle_dec y 1).
      - pose proof (sin_poly_error 0 y hy) as he. destruct (alternate 0 y hy) as [_ hn]. cbn [sin_poly pow] in *.
        assert (hl : 0 <= sin y). { apply sin_ge_0; [assumption|]. pose proof PI_RGT_0. pose proof PI2_1. lra. }
        rewrite Rabs_pos_eq by assumption. lra.
      - apply Rle_trans with 1; [apply Rabs_le, SIN_bound|lra]. }
    destruct (Rle_dec 0 ((a - b) / 2)).
    - rewrite (Rabs_pos_eq ((a - b) / 2)) by assumption. apply hs. assumption.
    - rewrite <- (Rabs_Ropp (sin _)), <- sin_neg, <- (Rabs_Ropp ((a - b) / 2)), (Rabs_pos_eq (- _)) by lra. apply hs. lra. }
  replace (Rabs (a - b)) with (2 * Rabs ((a - b) / 2)) by (unfold Rdiv; rewrite Rabs_mult, (Rabs_pos_eq (/ 2)) by lra; lra).
  pose proof (Rabs_pos (sin ((a + b) / 2))). pose proof (Rabs_pos (sin ((a - b) / 2))). nra.
Qed.

Lemma sin_lipschitz : forall a b, Rabs (sin a - sin b) <= Rabs (a - b).
Proof.
  intros a b. rewrite <- !cos_shift.
  replace (Rabs (a - b)) with (Rabs ((PI / 2 - a) - (PI / 2 - b))) by (rewrite <- Rabs_Ropp; f_equal; ring).
  apply cos_lipschitz.
Qed.

(** The last coefficients in Q. *)
Fixpoint qcoef (d : Z) (n : nat) : Q :=
  match n with O => 1%Q | S m => Qred (- qcoef d m / inject_Z ((2 * Z.of_nat m + 1 + d) * (2 * Z.of_nat m + 2 + d)))%Q end.
Lemma qcoef_value : forall d n, (0 <= d)%Z -> Q2R (qcoef d n) = coef (IZR d) n.
Proof.
  intros d n hd. induction n as [|n IH]; [unfold Q2R; cbn; field|].
  cbn [qcoef coef].
  assert (hm : ~ (inject_Z ((2 * Z.of_nat n + 1 + d) * (2 * Z.of_nat n + 2 + d)) == 0)%Q).
  { intro h. apply Qeq_eqR in h. rewrite Q2R_Z in h. unfold Q2R in h. cbn [Qnum Qden] in h. rewrite Rmult_0_l in h.
    apply eq_IZR_R0 in h. nia. }
  rewrite Q2R_red, Q2R_div by assumption. rewrite Q2R_opp, IH, Q2R_Z, mult_IZR, !plus_IZR, !mult_IZR, <- INR_IZR_INZ. reflexivity.
Qed.

Lemma last_term : forall d n m w, (0 <= d)%Z -> 0 <= w <= 403 / 100 ->
  (Qle_bool (Qabs.Qabs (qcoef d n) * qpow (403 # 100) m) (1 # 10 ^ 16) = true) ->
  Rabs (coef (IZR d) n * w ^ m) <= / 10 ^ 16.
Proof.
  intros d n m w hd hw h. apply Qle_bool_iff, Qle_Rle in h. rewrite Q2R_mult, qpow_value in h.
  rewrite Rabs_mult, <- qcoef_value by assumption.
  assert (ha : Q2R (Qabs.Qabs (qcoef d n)) = Rabs (Q2R (qcoef d n))).
  { apply Qabs.Qabs_case; intro hc; apply Qle_Rle in hc; unfold Q2R at 1 2 in hc; cbn [Qnum Qden] in hc.
    - rewrite Rabs_pos_eq; [reflexivity|]. unfold Q2R. lra.
    - rewrite Q2R_opp. rewrite Rabs_left1; [reflexivity|]. unfold Q2R. lra. }
  rewrite ha in h.
  replace (Q2R (403 # 100)) with (403 / 100) in h by (unfold Q2R; cbn; field).
  assert (e : Q2R (1 # 10 ^ 16) = / 10 ^ 16)
    by (unfold Q2R; cbn [Qnum Qden]; rewrite Rmult_1_l; f_equal; exact (eq_sym (pow_IZR 10 16))).
  rewrite e in h.
  rewrite (Rabs_pos_eq (w ^ m)) by (apply pow_le; lra).
  assert (w ^ m <= (403 / 100) ^ m) by (apply pow_incr; lra).
  pose proof (Rabs_pos (Q2R (qcoef d n))). nra.
Qed.
