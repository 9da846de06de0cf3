(** Quadrature: what steps do when the right hand side does not depend on the state; linear
    invariants. *)
From Coq Require Import Reals List Bool Lra Lia PeanoNat.
From Verif Require Import Integ_Model Integ_Spec Integ_Proofs Integ_Proofs2 Integ_Proofs3 Integ_Proofs4.
Import ListNotations.
Local Open Scope R_scope.

(** * Primitives *)

Lemma poly_primitive : forall a b c d t,
  derivable_pt_lim (fun t => a * t + b / 2 * t ^ 2 + c / 3 * t ^ 3 + d / 4 * t ^ 4) t (a + b * t + c * t ^ 2 + d * t ^ 3).
Proof.
  intros a b c d t.
  replace (a + b * t + c * t ^ 2 + d * t ^ 3)
    with (a * 1 + b / 2 * (INR 2 * t ^ pred 2) + c / 3 * (INR 3 * t ^ pred 3) + d / 4 * (INR 4 * t ^ pred 4)) by (cbn; field).
  apply (derivable_pt_lim_plus (fun t => a * t + b / 2 * t ^ 2 + c / 3 * t ^ 3) (fun t => d / 4 * t ^ 4)).
  - apply (derivable_pt_lim_plus (fun t => a * t + b / 2 * t ^ 2) (fun t => c / 3 * t ^ 3)).
    + apply (derivable_pt_lim_plus (fun t => a * t) (fun t => b / 2 * t ^ 2)).
      * apply (derivable_pt_lim_scal id a t 1). apply derivable_pt_lim_id.
      * apply (derivable_pt_lim_scal (fun t => t ^ 2) (b / 2)). apply derivable_pt_lim_pow.
    + apply (derivable_pt_lim_scal (fun t => t ^ 3) (c / 3)). apply derivable_pt_lim_pow.
  - apply (derivable_pt_lim_scal (fun t => t ^ 4) (d / 4)). apply derivable_pt_lim_pow.
Qed.

Lemma primitive_mean : forall G F a b, a < b -> primitive_on G F a b -> exists c, F b - F a = G c * (b - a) /\ a < c < b.
Proof. intros G F a b L P. apply (MVT_cor2 F G a b L). intros c C. apply P. lra. Qed.

Lemma cubic_difference : forall G F a b p q r s, a <= b -> primitive_on G F a b ->
  (forall t, G t = p + q * t + r * t ^ 2 + s * t ^ 3) ->
  F b - F a = (p * b + q / 2 * b ^ 2 + r / 3 * b ^ 3 + s / 4 * b ^ 4) - (p * a + q / 2 * a ^ 2 + r / 3 * a ^ 3 + s / 4 * a ^ 4).
Proof.
  intros G F a b p q r s AB P E. destruct (Rle_lt_or_eq_dec a b AB) as [L | L]; [| subst; ring].
  pose (H := fun t => F t - (p * t + q / 2 * t ^ 2 + r / 3 * t ^ 3 + s / 4 * t ^ 4)).
  destruct (primitive_mean (fun t => G t - (p + q * t + r * t ^ 2 + s * t ^ 3)) H a b L) as [c [C _]].
  - intros t T. apply derivable_pt_lim_minus; [apply P; exact T | apply poly_primitive].
  - rewrite (E c) in C. unfold H in C. lra.
Qed.

Lemma cubic_simpson : forall G F a h, 0 <= h -> cubic G -> primitive_on G F a (a + h) ->
  F (a + h) - F a = h / 6 * (G a + 4 * G (a + h / 2) + G (a + h)).
Proof.
  intros G F a h H [p [q [r [s E]]]] P.
  rewrite (cubic_difference G F a (a + h) p q r s); auto; [| lra]. rewrite ? E. field.
Qed.

Lemma lipschitz_simpson : forall G F L a h, 0 <= h -> primitive_on G F a (a + h) -> lipschitz_on L G a (a + h) ->
  Rabs (h / 6 * (G a + 4 * G (a + h / 2) + G (a + h)) - (F (a + h) - F a)) <= L * h * h / 2.
Proof.
  intros G F L a h H P LI. destruct (Rle_lt_or_eq_dec 0 h H) as [HP | HP].
  - destruct (primitive_mean G F a (a + h)) as [c [C [C1 C2]]]; [lra | exact P |]. rewrite C.
    assert (A0 := LI a c ltac:(lra) ltac:(lra)). assert (A1 := LI (a + h / 2) c ltac:(lra) ltac:(lra)).
    assert (A2 := LI (a + h) c ltac:(lra) ltac:(lra)).
    rewrite (Rabs_left1 (a - c)) in A0 by lra. rewrite (Rabs_right (a + h - c)) in A2 by lra.
    assert (LP : 0 <= L).
    { assert (A3 := LI a (a + h) ltac:(lra) ltac:(lra)). assert (Q := Rabs_pos (G a - G (a + h))).
      rewrite (Rabs_left1 (a - (a + h))) in A3 by lra.
      destruct (Rle_lt_dec 0 L) as [X | X]; [exact X |]. nra. }
    assert (M : Rabs (a + h / 2 - c) <= h / 2) by (apply Rabs_le; lra).
    assert (A1' : Rabs (G (a + h / 2) - G c) <= L * (h / 2)).
    { apply Rle_trans with (1 := A1). apply Rmult_le_compat_l; [exact LP | exact M]. }
    replace (h / 6 * (G a + 4 * G (a + h / 2) + G (a + h)) - G c * (a + h - a))
      with (h / 6 * ((G a - G c) + 4 * (G (a + h / 2) - G c) + (G (a + h) - G c))) by field.
    assert (S : Rabs ((G a - G c) + 4 * (G (a + h / 2) - G c) + (G (a + h) - G c)) <= 3 * L * h).
    { apply Rle_trans with (1 := Rabs_triang _ _).
      assert (T1 := Rabs_triang (G a - G c) (4 * (G (a + h / 2) - G c))).
      rewrite (Rabs_mult 4) in T1. rewrite (Rabs_right 4) in T1 by lra. nra. }
    rewrite Rabs_mult, (Rabs_right (h / 6)) by lra. nra.
  - subst h. replace (a + 0) with a by ring.
    replace (0 / 6 * (G a + 4 * G (a + 0 / 2) + G a) - (F a - F a)) with 0 by field. rewrite Rabs_R0. lra.
Qed.

(** * Quadrature steps *)

Definition quad (g : integrand) : ode := to_ode (to_scalar g).

Lemma quad_rk3 : forall g k t h y x1 e, rk3 (quad g) k t h [y] = Some (x1, e) ->
  exists g0 ga gb, g k t = Some g0 /\ g k (t + h / 2) = Some ga /\ g k (t + h) = Some gb /\
    x1 = [y + h / 6 * (g0 + 4 * ga + gb)] /\ e = [Rabs (h / 6 * (2 * ga - g0 - gb))].
Proof.
  intros g k t h y x1 e H. unfold rk3, quad, to_ode, to_scalar in H. cbn [nth0 nth] in H.
  destruct (g k t) as [g0 |]; [| discriminate].
  destruct (g k (t + h / 2)) as [ga |]; [| discriminate].
  destruct (g k (t + h)) as [gb |]; [| discriminate].
  cbn in H. injection H as <- <-. exists g0, ga, gb. repeat split.
  - f_equal. field.
  - f_equal. f_equal. field.
Qed.

(** What holds between the initial values and the state after quadrature steps. *)
Definition quadrature (g : integrand) (m : R) (v : full) (t : R) (x : vec) : Prop :=
  forall y0, f_x0 v = [y0] -> exists y, x = [y] /\ f_t0 v <= t /\
    forall G, (forall u, f_t0 v <= u <= t -> g (f_k v) u = Some (G u)) ->
      (forall F, primitive_on G F (f_t0 v) t -> cubic G -> y = y0 + (F t - F (f_t0 v))) /\
      (forall F L, primitive_on G F (f_t0 v) t -> lipschitz_on L G (f_t0 v) t ->
         Rabs (y - y0 - (F t - F (f_t0 v))) <= L * m / 2 * (t - f_t0 v)) /\
      (forall lo hi, (forall u, f_t0 v <= u <= t -> lo <= G u <= hi) ->
         lo * (t - f_t0 v) <= y - y0 <= hi * (t - f_t0 v)).

Lemma quadrature_start : forall g m v, quadrature g m v (f_t0 v) (f_x0 v).
Proof.
  intros g m v y0 E. exists y0. split; [exact E |]. split; [lra |]. intros G HG. repeat split.
  - intros F _ _. ring.
  - intros F L _ _. replace (y0 - y0 - (F (f_t0 v) - F (f_t0 v))) with 0 by ring. rewrite Rabs_R0. lra.
  - lra.
  - lra.
Qed.

Lemma primitive_sub : forall G F a b a' b', primitive_on G F a b -> a <= a' -> b' <= b -> primitive_on G F a' b'.
Proof. intros G F a b a' b' P A B t T. apply P. lra. Qed.
Lemma lipschitz_sub : forall L G a b a' b', lipschitz_on L G a b -> a <= a' -> b' <= b -> lipschitz_on L G a' b'.
Proof. intros L G a b a' b' P A B t u T U. apply P; lra. Qed.
Lemma lipschitz_nonneg : forall L G a b, a < b -> lipschitz_on L G a b -> 0 <= L.
Proof.
  intros L G a b AB LI. assert (A3 := LI a b ltac:(lra) ltac:(lra)). assert (Q := Rabs_pos (G a - G b)).
  rewrite (Rabs_left1 (a - b)) in A3 by lra. destruct (Rle_lt_dec 0 L) as [X | X]; [exact X |]. nra.
Qed.

Lemma quadrature_step : forall g m v t x h x1 e, 0 <= h <= m -> quadrature g m v t x ->
  rk3 (quad g) (f_k v) t h x = Some (x1, e) -> quadrature g m v (t + h) x1.
Proof.
  intros g m v t x h x1 e [H HM] Q RK y0 E. destruct (Q y0 E) as [y [-> [T Q']]].
  destruct (quad_rk3 g (f_k v) t h y x1 e RK) as [g0 [ga [gb [E0 [Ea [Eb [-> _]]]]]]].
  exists (y + h / 6 * (g0 + 4 * ga + gb)). split; [reflexivity |]. split; [lra |].
  intros G HG. destruct (Q' G) as [Q1 [Q2 Q3]]; [intros u U; apply HG; lra |].
  rewrite (HG t) in E0 by lra. injection E0 as <-. rewrite (HG (t + h / 2)) in Ea by lra. injection Ea as <-.
  rewrite (HG (t + h)) in Eb by lra. injection Eb as <-.
  repeat split.
  - intros F P C. rewrite (Q1 F) by (auto; apply (primitive_sub G F _ _ _ _ P); lra).
    rewrite <- (cubic_simpson G F t h H C) by (apply (primitive_sub G F _ _ _ _ P); lra). ring.
  - intros F L P LI.
    assert (A := Q2 F L ltac:(apply (primitive_sub G F _ _ _ _ P); lra) ltac:(apply (lipschitz_sub L G _ _ _ _ LI); lra)).
    assert (B := lipschitz_simpson G F L t h H ltac:(apply (primitive_sub G F _ _ _ _ P); lra) ltac:(apply (lipschitz_sub L G _ _ _ _ LI); lra)).
    set (S := h / 6 * (G t + 4 * G (t + h / 2) + G (t + h))) in *.
    replace (y + S - y0 - (F (t + h) - F (f_t0 v))) with ((y - y0 - (F t - F (f_t0 v))) + (S - (F (t + h) - F t))) by ring.
    apply Rle_trans with (1 := Rabs_triang _ _).
    destruct (Rle_lt_or_eq_dec 0 h H) as [HP | HP].
    + assert (LP : 0 <= L) by (apply (lipschitz_nonneg L G (f_t0 v) (t + h)); [lra | exact LI]).
      assert (L * h * h <= L * m * h) by (apply Rmult_le_compat_r; [lra |]; apply Rmult_le_compat_l; lra).
      lra.
    + subst h. lra.
  - destruct (Q3 lo hi) as [A _]; [intros u U; apply H0; lra |].
    assert (B0 := H0 t ltac:(lra)). assert (B1 := H0 (t + h / 2) ltac:(lra)). assert (B2 := H0 (t + h) ltac:(lra)). nra.
  - destruct (Q3 lo hi) as [_ A]; [intros u U; apply H0; lra |].
    assert (B0 := H0 t ltac:(lra)). assert (B1 := H0 (t + h / 2) ltac:(lra)). assert (B2 := H0 (t + h) ltac:(lra)). nra.
Qed.

(** * Linear invariants *)

Lemma dot_axpy : forall w a d x, length d = length x -> dot w (axpy a d x) = dot w x + a * dot w d.
Proof.
  intros w a d. revert w. induction d as [| d0 d IH]; intros [| w0 w] [| x0 x] H; cbn in *; try discriminate; try ring.
  rewrite IH by lia. ring.
Qed.

Definition linear (w : vec) (rate : R) (v : full) (t : R) (x : vec) : Prop :=
  length x = length (f_x0 v) /\ dot w x = dot w (f_x0 v) + rate * (t - f_t0 v).

Lemma linear_step : forall f w rate v t x h x1 e, keeps_dimension (length (f_x0 v)) f ->
  (forall t x d, f (f_k v) t x = Some d -> dot w d = rate) -> linear w rate v t x ->
  rk3 f (f_k v) t h x = Some (x1, e) -> linear w rate v (t + h) x1.
Proof.
  intros f w rate v t x h x1 e K HW [L D] RK. unfold rk3 in RK.
  destruct (f (f_k v) t x) as [d0 |] eqn:E0; [| discriminate].
  destruct (f (f_k v) (t + h / 2) (axpy (h / 2) d0 x)) as [da |] eqn:Ea; [| discriminate].
  destruct (f (f_k v) (t + h) (axpy (2 * h) da (axpy (- h) d0 x))) as [db |] eqn:Eb; [| discriminate].
  injection RK as <- _.
  rewrite <- L in K. assert (L0 := K _ _ _ _ eq_refl E0). assert (La := K _ _ _ _ (axpy_length _ _ _) Ea).
  assert (Lb := K _ _ _ _ (eq_trans (axpy_length _ _ _) (axpy_length _ _ _)) Eb).
  rewrite ? axpy_length in La. rewrite ? axpy_length in Lb.
  split; [rewrite ? axpy_length; exact L |].
  rewrite dot_axpy by (rewrite ? axpy_length; exact Lb). rewrite dot_axpy by (rewrite ? axpy_length; exact La).
  rewrite dot_axpy by exact L0. rewrite (HW _ _ _ E0), (HW _ _ _ Ea), (HW _ _ _ Eb), D. field.
Qed.
