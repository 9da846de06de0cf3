(** The Taylor polynomials of sine and cosine bound them on all of the positive axis; the same
    polynomials with integer coefficients. *)
From Coq Require Import Reals ZArith List Lra Lia Psatz.
Import ListNotations.
From Verif Require Import Fresnel_Proofs.
Local Open Scope R_scope.

(** A function with a derivative that is not negative grows. *)
Lemma grows : forall (f f' : R -> R) a b, a <= b ->
  (forall x, a <= x <= b -> derivable_pt_lim f x (f' x)) ->
  (forall x, a <= x <= b -> 0 <= f' x) -> f a <= f b.
Proof.
  intros f f' a b hab hd hp.
  destruct (Req_dec a b) as [->|hne]; [lra|].
  destruct (MVT_cor2 f f' a b) as (c & hc & h1); [lra|assumption|].
  assert (0 <= f' c) by (apply hp; lra). nra.
Qed.

(** Coefficients of the cosine (d = 0) and of the sine (d = 1). *)
Fixpoint coef (d : R) (n : nat) : R :=
  match n with O => 1 | S n => - coef d n / ((2 * INR n + 1 + d) * (2 * INR n + 2 + d)) end.

Fixpoint cos_poly (n : nat) (w : R) : R :=
  match n with O => 1 | S m => cos_poly m w + coef 0 n * w ^ (2 * n) end.
Fixpoint sin_poly (n : nat) (w : R) : R :=
  match n with O => w | S m => sin_poly m w + coef 1 n * w ^ (2 * n + 1) end.

Lemma coef_sin : forall n, coef 1 n * (2 * INR n + 1) = coef 0 n.
Proof.
  induction n as [|n IH]; [cbn; lra|].
  cbn [coef]. rewrite <- IH, S_INR. pose proof (pos_INR n). field. lra.
Qed.

Lemma coef_cos : forall n, coef 0 (S n) * (2 * INR n + 2) = - coef 1 n.
Proof.
  intro n. cbn [coef]. rewrite <- (coef_sin n). pose proof (pos_INR n). field. lra.
Qed.

Lemma pow_derivative : forall c n x, derivable_pt_lim (fun w => c * w ^ n) x (c * (INR n * x ^ pred n)).
Proof.
  intros c n x. apply (derivable_pt_lim_scal (fun w => w ^ n)). apply derivable_pt_lim_pow.
Qed.

Lemma sin_poly_derivative : forall n x, derivable_pt_lim (sin_poly n) x (cos_poly n x).
Proof.
  induction n as [|n IH]; intro x.
  - apply derivable_pt_lim_id.
  - cbn [cos_poly]. unfold sin_poly at 1. fold sin_poly.
    apply (derivable_pt_lim_plus (sin_poly n) (fun w => coef 1 (S n) * w ^ (2 * S n + 1))); [apply IH|].
    rewrite <- coef_sin.
    replace (coef 1 (S n) * (2 * INR (S n) + 1) * x ^ (2 * S n))
      with (coef 1 (S n) * (INR (2 * S n + 1) * x ^ pred (2 * S n + 1))).
    + apply pow_derivative.
    + replace (pred (2 * S n + 1)) with (2 * S n)%nat by lia. rewrite plus_INR, mult_INR. cbn [INR]. ring.
Qed.

Lemma cos_poly_derivative : forall n x, derivable_pt_lim (cos_poly (S n)) x (- sin_poly n x).
Proof.
  induction n as [|n IH]; intro x.
  - unfold cos_poly. cbn [sin_poly].
    replace (- x) with (0 + coef 0 1 * (INR 2 * x ^ pred 2)) by (cbn; field).
    apply (derivable_pt_lim_plus (fct_cte 1) (fun w => coef 0 1 * w ^ 2));
      [apply derivable_pt_lim_const|apply pow_derivative].
  - cbn [sin_poly]. unfold cos_poly at 1. fold cos_poly.
    replace (- (sin_poly n x + coef 1 (S n) * x ^ (2 * S n + 1)))
      with (- sin_poly n x + coef 0 (S (S n)) * (INR (2 * S (S n)) * x ^ pred (2 * S (S n)))).
    + apply (derivable_pt_lim_plus (cos_poly (S n)) (fun w => coef 0 (S (S n)) * w ^ (2 * S (S n)))); [apply IH|apply pow_derivative].
    + replace (pred (2 * S (S n))) with (2 * S n + 1)%nat by lia.
      pose proof (coef_cos (S n)) as h. rewrite mult_INR, (S_INR (S n)). 
      replace (INR 2) with 2 by reflexivity.
      replace (coef 0 (S (S n)) * (2 * (INR (S n) + 1) * x ^ (2 * S n + 1)))
        with (coef 0 (S (S n)) * (2 * INR (S n) + 2) * x ^ (2 * S n + 1)) by ring.
      rewrite h. ring.
Qed.

Lemma poly_at_0 : forall n, cos_poly n 0 = 1 /\ sin_poly n 0 = 0.
Proof.
  induction n as [|n [h1 h2]]; [split; reflexivity|].
  cbn [cos_poly sin_poly]. rewrite h1, h2, !pow_i by lia. split; ring.
Qed.

(** The signs of the errors alternate. *)
Lemma alternate : forall n w, 0 <= w ->
  0 <= (-1) ^ S n * (cos w - cos_poly n w) /\ 0 <= (-1) ^ S n * (sin w - sin_poly n w).
Proof.
  assert (hsin : forall n, (forall w, 0 <= w -> 0 <= (-1) ^ S n * (cos w - cos_poly n w)) ->
     forall w, 0 <= w -> 0 <= (-1) ^ S n * (sin w - sin_poly n w)).
  { intros n h w hw.
    replace 0 with ((-1) ^ S n * (sin 0 - sin_poly n 0)) by (rewrite sin_0, (proj2 (poly_at_0 n)); ring).
    apply (grows (fun w => (-1) ^ S n * (sin w - sin_poly n w)) (fun w => (-1) ^ S n * (cos w - cos_poly n w))); [assumption| |].
    - intros x hx. apply (derivable_pt_lim_scal (fun w => sin w - sin_poly n w)).
      apply (derivable_pt_lim_minus sin (sin_poly n)); [apply derivable_pt_lim_sin|apply sin_poly_derivative].
    - intros x hx. apply h. lra. }
  induction n as [|n IH].
  - assert (hcos : forall w, 0 <= w -> 0 <= (-1) ^ 1 * (cos w - cos_poly 0 w))
      by (intros w _; cbn; pose proof (COS_bound w); lra).
    intros w hw. split; [apply hcos; assumption|apply hsin; assumption].
  - assert (hcos : forall w, 0 <= w -> 0 <= (-1) ^ S (S n) * (cos w - cos_poly (S n) w)).
    { intros w hw.
      replace 0 with ((-1) ^ S (S n) * (cos 0 - cos_poly (S n) 0)) by (rewrite cos_0, (proj1 (poly_at_0 (S n))); ring).
      apply (grows (fun w => (-1) ^ S (S n) * (cos w - cos_poly (S n) w))
                   (fun w => (-1) ^ S (S n) * (- sin w - - sin_poly n w))); [assumption| |].
      - intros x hx. apply (derivable_pt_lim_scal (fun w => cos w - cos_poly (S n) w)).
        apply (derivable_pt_lim_minus cos (cos_poly (S n))); [apply derivable_pt_lim_cos|apply cos_poly_derivative].
      - intros x hx. destruct (IH x) as [_ h]; [lra|].
        replace ((-1) ^ S (S n) * (- sin x - - sin_poly n x)) with ((-1) ^ S n * (sin x - sin_poly n x)) by (cbn [pow]; ring).
        exact h. }
    intros w hw. split; [apply hcos; assumption|apply hsin; assumption].
Qed.

Lemma sign_abs : forall n, Rabs ((-1) ^ n) = 1.
Proof. intro n. apply pow_1_abs. Qed.

Lemma between : forall s a b, Rabs s = 1 -> 0 <= s * a -> 0 <= - s * (a + b) -> Rabs a <= Rabs b.
Proof.
  intros s a b hs h1 h2. unfold Rabs in *.
  destruct (Rcase_abs s), (Rcase_abs a), (Rcase_abs b); try lra; nra.
Qed.

Lemma cos_poly_error : forall n w, 0 <= w -> Rabs (cos w - cos_poly n w) <= Rabs (coef 0 (S n) * w ^ (2 * S n)).
Proof.
  intros n w hw. rewrite <- (Rabs_Ropp (coef 0 (S n) * w ^ (2 * S n))).
  apply between with (s := (-1) ^ S n); [apply sign_abs|apply alternate; assumption|].
  destruct (alternate (S n) w hw) as [h _]. cbn [cos_poly] in h.
  replace (- (-1) ^ S n * (cos w - cos_poly n w + - (coef 0 (S n) * w ^ (2 * S n))))
    with ((-1) ^ S (S n) * (cos w - (cos_poly n w + coef 0 (S n) * w ^ (2 * S n)))) by (cbn [pow]; ring).
  exact h.
Qed.

Lemma sin_poly_error : forall n w, 0 <= w -> Rabs (sin w - sin_poly n w) <= Rabs (coef 1 (S n) * w ^ (2 * S n + 1)).
Proof.
  intros n w hw. rewrite <- (Rabs_Ropp (coef 1 (S n) * w ^ (2 * S n + 1))).
  apply between with (s := (-1) ^ S n); [apply sign_abs|apply alternate; assumption|].
  destruct (alternate (S n) w hw) as [_ h]. cbn [sin_poly] in h.
  replace (- (-1) ^ S n * (sin w - sin_poly n w + - (coef 1 (S n) * w ^ (2 * S n + 1))))
    with ((-1) ^ S (S n) * (sin w - (sin_poly n w + coef 1 (S n) * w ^ (2 * S n + 1)))) by (cbn [pow]; ring).
  exact h.
Qed.

(** Nested form, starting with the k-th term. *)
Fixpoint nest (d : R) (n k : nat) (v : R) : R :=
  match n with O => 1 | S n => 1 - v / ((2 * INR k + 1 + d) * (2 * INR k + 2 + d)) * nest d n (S k) v end.

Lemma nest_last : forall d n k v, 0 <= d -> coef d k <> 0 ->
  coef d k * nest d (S n) k v = coef d k * nest d n k v + coef d (k + S n) * v ^ S n.
Proof.
  intros d n. induction n as [|n IH]; intros k v hd hk; pose proof (pos_INR k).
  - cbn [nest]. rewrite Nat.add_1_r. cbn [coef pow]. field. lra.
  - assert (hk' : coef d (S k) <> 0).
    { cbn [coef]. unfold Rdiv. apply Rmult_integral_contrapositive_currified; [lra|apply Rinv_neq_0_compat; nra]. }
    specialize (IH (S k) v hd hk').
    change (nest d (S (S n)) k v) with (1 - v / ((2 * INR k + 1 + d) * (2 * INR k + 2 + d)) * nest d (S n) (S k) v).
    change (nest d (S n) k v) with (1 - v / ((2 * INR k + 1 + d) * (2 * INR k + 2 + d)) * nest d n (S k) v).
    replace (coef d k * (1 - v / ((2 * INR k + 1 + d) * (2 * INR k + 2 + d)) * nest d (S n) (S k) v))
      with (coef d k + v * (coef d (S k) * nest d (S n) (S k) v)) by (cbn [coef]; field; lra).
    replace (coef d k * (1 - v / ((2 * INR k + 1 + d) * (2 * INR k + 2 + d)) * nest d n (S k) v))
      with (coef d k + v * (coef d (S k) * nest d n (S k) v)) by (cbn [coef]; field; lra).
    rewrite IH. replace (k + S (S n))%nat with (S k + S n)%nat by lia. cbn [pow]. ring.
Qed.

Lemma cos_poly_nest : forall n w, cos_poly n w = nest 0 n 0 (w * w).
Proof.
  induction n as [|n IH]; intro w; [reflexivity|].
  cbn [cos_poly]. pose proof (nest_last 0 n 0 (w * w) (Rle_refl 0) ltac:(cbn; lra)) as h.
  cbn [coef] in h. rewrite !Rmult_1_l in h. rewrite h, IH. cbn [Nat.add].
  rewrite pow_mult. cbn [pow]. rewrite Rmult_1_r. reflexivity.
Qed.

Lemma sin_poly_nest : forall n w, sin_poly n w = w * nest 1 n 0 (w * w).
Proof.
  induction n as [|n IH]; intro w; [cbn; lra|].
  cbn [sin_poly]. pose proof (nest_last 1 n 0 (w * w) ltac:(lra) ltac:(cbn; lra)) as h.
  cbn [coef] in h. rewrite !Rmult_1_l in h. rewrite h, IH. cbn [Nat.add].
  rewrite pow_add, pow_mult. cbn [pow]. rewrite !Rmult_1_r. ring.
Qed.
