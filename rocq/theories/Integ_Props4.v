(** C91: ArcLengthIntegrator and InverseArcLengthIntegrator. *)
From Coq Require Import Reals List Bool Lra Lia PeanoNat.
From Verif Require Import Integ_Model Integ_Spec Integ_Proofs Integ_Proofs2 Integ_Proofs3 Integ_Proofs4 Integ_Proofs5 Integ_Proofs6 Integ_Proofs7 Integ_Proofs8 Integ_Proofs9 Integ_Proofs10 Integ_Proofs11 Integ_Proofs12 Integ_Props Integ_Props2 Integ_Props3.
Import ListNotations.
Local Open Scope R_scope.

(** The states of an integrator after any calls of Evaluate and IntegralFunction or InverseFunction,
    returning or throwing. *)
Inductive uses (g : scalar_ode) (p0 : ivp) : ivp -> Prop :=
| uses_new : uses g p0 p0
| uses_evaluate : forall n p t k r p', uses g p0 p -> integrator_evaluate n g p t k = (r, p') -> r <> More -> uses g p0 p'
| uses_functor : forall n p lo hi k tol eps r p', uses g p0 p -> make_functor n g p lo hi k tol eps = (r, p') -> r <> More -> uses g p0 p'.

(** A configuration with no negative step size or accuracy. *)
Definition usable (c : config) : Prop := 0 <= initial_step_size_target c /\ 0 <= maximum_step_size c /\ 0 <= target_accuracy c.

Definition config_settings (c : config) : settings :=
  Settings (Some (maximum_step_size c)) 0 (Some (initial_step_size_target c)) (Some (target_accuracy c)) (Some (target_accuracy c)) true.
Lemma arc_length_new : forall c p, arc_length_integrator c = Some p -> p = fresh_ivp (Full (parameter_lower_bound c) [0] (c_k c)) (config_settings c).
Proof. intros c p H. injection H as <-. reflexivity. Qed.
Lemma inverse_new : forall c p, inverse_arc_length_integrator c = Some p -> p = fresh_ivp (Full (image_lower_bound c) [parameter_lower_bound c] (c_k c)) (config_settings c).
Proof. intros c p H. injection H as <-. reflexivity. Qed.

Lemma uses_history : forall g v c p, uses g (fresh_ivp v c) p -> history (to_ode g) v c p.
Proof.
  intros g v c p H. induction H as [| n p t k r p' H IH E M | n p lo hi k tol eps r p' H IH E M].
  - apply hist_new.
  - unfold integrator_evaluate in E. destruct (solve n (to_ode g) p t (Values None None (Some k))) as [r1 p1] eqn:S.
    assert (N1 : r1 <> More) by (destruct r1; try discriminate; injection E as <- _; contradiction).
    assert (p1 = p') by (destruct r1; injection E as _ <-; reflexivity). subst p1.
    apply (hist_solve (to_ode g) v c n p t _ r1 p' IH S N1).
  - unfold make_functor in E. destruct (dense_solve n (to_ode g) p hi (Values None None (Some k))) as [r1 p1] eqn:S.
    assert (N1 : r1 <> More) by (destruct r1; try discriminate; injection E as <- _; contradiction).
    assert (p1 = p').
    { destruct r1 as [d | |]; [| injection E as _ <-; reflexivity | injection E as _ <-; reflexivity].
      destruct (out_start d), (out_end d); try (injection E as _ <-; reflexivity). destruct (_ && _); injection E as _ <-; reflexivity. }
    subst p1. apply (hist_dense (to_ode g) v c n p hi _ r1 p' IH S N1).
Qed.

(** Evaluate of ArcLengthIntegrator, after any calls: the integral from the lower bound of the
    parameter, exactly for polynomial speeds up to degree three, within L m / 2 times the length for
    speeds with Lipschitz constant L, and within the bounds of the speed times the length. *)
Theorem arc_length_evaluate : forall g c p0 p n t k y p' G,
  arc_length_integrator c = Some p0 -> usable c -> uses (to_scalar g) p0 p ->
  integrator_evaluate n (to_scalar g) p t k = (Ret (Some y), p') ->
  (forall u, parameter_lower_bound c <= u <= t -> g k u = Some (G u)) ->
  parameter_lower_bound c <= t /\
  (forall F, primitive_on G F (parameter_lower_bound c) t -> cubic G -> y = F t - F (parameter_lower_bound c)) /\
  (forall F L, primitive_on G F (parameter_lower_bound c) t -> lipschitz_on L G (parameter_lower_bound c) t ->
     Rabs (y - (F t - F (parameter_lower_bound c))) <= L * maximum_step_size c / 2 * (t - parameter_lower_bound c)) /\
  (forall lo hi, (forall u, parameter_lower_bound c <= u <= t -> lo <= G u <= hi) ->
     lo * (t - parameter_lower_bound c) <= y <= hi * (t - parameter_lower_bound c)).
Proof.
  intros g c p0 p n t k y p' G A [U1 [U2 U3]] H E HG. apply arc_length_new in A. subst p0. apply uses_history in H.
  unfold integrator_evaluate in E.
  destruct (solve n (to_ode (to_scalar g)) p t (Values None None (Some k))) as [[o | |] p1] eqn:S; try discriminate.
  destruct o as [x |]; [| discriminate]. cbn in E. injection E as E _.
  destruct (solve_quadrature g (Full (parameter_lower_bound c) [0] (c_k c)) (config_settings c) p n t (Values None None (Some k)) 0 x p1 (maximum_step_size c) G eq_refl eq_refl U2
    (ex_intro _ _ (conj eq_refl U1)) H eq_refl S HG) as [LT [y' [-> [Q1 [Q2 Q3]]]]]. cbn in E. subst y'.
  cbn [used f_t0 v_t0] in *. split; [exact LT |]. split; [intros F P C; rewrite (Q1 F P C); ring |].
  split; [intros F L P LI; specialize (Q2 F L P LI); rewrite Rplus_0_l in Q2; exact Q2 |].
  intros lo hi B. specialize (Q3 lo hi B). lra.
Qed.
Print Assumptions arc_length_evaluate.

(** Outside the domain both integrators throw and stay as they are; at the start of the domain they
    return 0 and the lower bound of the parameter. *)
Theorem integrators_at_start : forall g c p0 p n k y p', arc_length_integrator c = Some p0 -> usable c -> uses g p0 p ->
  integrator_evaluate n g p (parameter_lower_bound c) k = (Ret (Some y), p') -> y = 0.
Proof.
  intros g c p0 p n k y p' A [U1 [U2 U3]] H E. apply arc_length_new in A. subst p0. apply uses_history in H.
  unfold integrator_evaluate in E.
  destruct (solve n (to_ode g) p (parameter_lower_bound c) (Values None None (Some k))) as [[o | |] p1] eqn:S; try discriminate.
  destruct o as [x |]; [| discriminate]. cbn in E. injection E as E _.
  assert (X := solve_at_initial_time (to_ode g) (Full (parameter_lower_bound c) [0] (c_k c)) (config_settings c) p n (Values None None (Some k)) x p1 (maximum_step_size c) ltac:(discriminate) eq_refl U2
    (ex_intro _ _ (conj eq_refl U1)) H S). rewrite X in E. cbn in E. symmetry. exact E.
Qed.
Print Assumptions integrators_at_start.
Theorem inverse_at_start : forall g c p0 p n k y p', inverse_arc_length_integrator c = Some p0 -> usable c -> uses g p0 p ->
  integrator_evaluate n g p (image_lower_bound c) k = (Ret (Some y), p') -> y = parameter_lower_bound c.
Proof.
  intros g c p0 p n k y p' A [U1 [U2 U3]] H E. apply inverse_new in A. subst p0. apply uses_history in H.
  unfold integrator_evaluate in E.
  destruct (solve n (to_ode g) p (image_lower_bound c) (Values None None (Some k))) as [[o | |] p1] eqn:S; try discriminate.
  destruct o as [x |]; [| discriminate]. cbn in E. injection E as E _.
  assert (X := solve_at_initial_time (to_ode g) (Full (image_lower_bound c) [parameter_lower_bound c] (c_k c)) (config_settings c) p n (Values None None (Some k)) x p1 (maximum_step_size c) ltac:(discriminate) eq_refl U2
    (ex_intro _ _ (conj eq_refl U1)) H S). rewrite X in E. cbn in E. symmetry. exact E.
Qed.
Print Assumptions inverse_at_start.
Theorem integrators_refuse : forall g c pa pi p n t k,
  arc_length_integrator c = Some pa -> inverse_arc_length_integrator c = Some pi ->
  (uses g pa p -> t < parameter_lower_bound c -> integrator_evaluate n g p t k = (Exc, p)) /\
  (uses g pi p -> t < image_lower_bound c -> integrator_evaluate n g p t k = (Exc, p)).
Proof.
  intros g c pa pi p n t k A B. apply arc_length_new in A. apply inverse_new in B. subst pa pi.
  split; intros H L; apply uses_history in H; assert (D := history_defaults _ _ _ _ H); unfold integrator_evaluate;
    destruct (solve_refuses n (to_ode g) p t (Values None None (Some k))) as [-> _]; auto; left; rewrite D; exact L.
Qed.
Print Assumptions integrators_refuse.

(** Evaluate of InverseArcLengthIntegrator lies between the bounds of the derivative times the length;
    so it is exact for a constant derivative. *)
Definition slope_between (lo hi : R) (v : full) (t : R) (x : vec) : Prop :=
  forall y0, f_x0 v = [y0] -> exists y, x = [y] /\ lo * (t - f_t0 v) <= y - y0 <= hi * (t - f_t0 v).
Lemma slope_step : forall g lo hi, (forall k t x d, g k t x = Some d -> lo <= d <= hi) ->
  forall v t x h x1 e, 0 <= h -> slope_between lo hi v t x -> rk3 (to_ode g) (f_k v) t h x = Some (x1, e) -> slope_between lo hi v (t + h) x1.
Proof.
  intros g lo hi B v t x h x1 e H Q RK y0 E. destruct (Q y0 E) as [y [-> BY]]. unfold rk3, to_ode in RK. cbn [nth0 nth] in RK.
  destruct (g (f_k v) t y) as [d0 |] eqn:G0; [| discriminate].
  match type of RK with match match ?u with _ => _ end with _ => _ end = _ => destruct u as [da |] eqn:GA end; [| discriminate].
  match type of RK with match match ?u with _ => _ end with _ => _ end = _ => destruct u as [db |] eqn:GB end; [| discriminate].
  injection RK as <- _. cbn [axpy]. eexists. split; [reflexivity |].
  apply B in G0, GA, GB. 
  assert (L : forall d, lo <= d <= hi -> lo * h <= h * d <= hi * h).
  { intros d [D1 D2]. split; rewrite (Rmult_comm h d); apply Rmult_le_compat_r; assumption. }
  apply L in G0, GA, GB. replace (y + h / 6 * d0 + 4 * (h / 6) * da + h / 6 * db - y0) with ((y - y0) + (h * d0 / 6 + 4 * (h * da) / 6 + h * db / 6)) by field.
  replace (lo * (t + h - f_t0 v)) with (lo * (t - f_t0 v) + lo * h) by ring. replace (hi * (t + h - f_t0 v)) with (hi * (t - f_t0 v) + hi * h) by ring. lra.
Qed.
Theorem inverse_evaluate_bounds : forall g c p0 p n s k y p' lo hi,
  inverse_arc_length_integrator c = Some p0 -> usable c -> uses g p0 p ->
  (forall k t x d, g k t x = Some d -> lo <= d <= hi) ->
  integrator_evaluate n g p s k = (Ret (Some y), p') ->
  parameter_lower_bound c + lo * (s - image_lower_bound c) <= y <= parameter_lower_bound c + hi * (s - image_lower_bound c).
Proof.
  intros g c p0 p n s k y p' lo hi A [U1 [U2 U3]] H B E. apply inverse_new in A. subst p0. apply uses_history in H.
  unfold integrator_evaluate in E.
  destruct (solve n (to_ode g) p s (Values None None (Some k))) as [[o | |] p1] eqn:S; try discriminate.
  destruct o as [x |]; [| discriminate]. cbn in E. injection E as E _.
  assert (XN : f_x0 (Full (image_lower_bound c) [parameter_lower_bound c] (c_k c)) <> []) by discriminate.
  assert (XE := solve_nonempty n _ _ _ p _ _ x p1 XN H S).
  destruct (solve_relation (to_ode g) (maximum_step_size c) (slope_between lo hi)) with (v := Full (image_lower_bound c) [parameter_lower_bound c] (c_k c)) (c := config_settings c) (p := p) (n := n) (tf := s) (w := Values None None (Some k)) (x := x) (p' := p1)
    as [_ [_ [_ Q]]]; auto.
  - intros v y0 E0. exists y0. split; [exact E0 |]. lra.
  - intros v t x0 h x1 e HB. apply slope_step; [exact B | lra].
  - split; [split; [reflexivity | exact U2] |]. exists (initial_step_size_target c). split; [reflexivity | exact U1].
  - destruct (Q (parameter_lower_bound c) eq_refl) as [y' [-> BY]]. cbn in E, BY. subst y'. lra.
Qed.
Print Assumptions inverse_evaluate_bounds.

(** Going to the arc length and back: with a speed between a and b and its reciprocal as the derivative
    of the parameter, the parameter comes back up to the ratio b / a; a constant speed gives it back
    exactly. *)
Theorem round_trip : forall g gi c pa pi p q n n' t k s u p' q' a b,
  arc_length_integrator c = Some pa -> inverse_arc_length_integrator c = Some pi -> usable c -> image_lower_bound c = 0 ->
  0 < a <= b ->
  (forall k t, exists v, g k t = Some v /\ a <= v <= b) -> (forall k s t d, gi k s t = Some d -> / b <= d <= / a) ->
  uses (to_scalar g) pa p -> uses gi pi q ->
  integrator_evaluate n (to_scalar g) p t k = (Ret (Some s), p') -> integrator_evaluate n' gi q s k = (Ret (Some u), q') ->
  a / b * (t - parameter_lower_bound c) <= u - parameter_lower_bound c <= b / a * (t - parameter_lower_bound c).
Proof.
  intros g gi c pa pi p q n n' t k s u p' q' a b A B U IM AB HG HI HP HQ E1 E2.
  pose (G := fun w => match g k w with Some v => v | None => 0 end).
  destruct (arc_length_evaluate g c pa p n t k s p' G A U HP E1) as [LT [_ [_ Q]]].
  { intros w _. unfold G. destruct (HG k w) as [v [-> _]]. reflexivity. }
  destruct (Q a b) as [S1 S2]. { intros w _. unfold G. destruct (HG k w) as [v [-> V]]. exact V. }
  assert (I := inverse_evaluate_bounds gi c pi q n' s k u q' (/ b) (/ a) B U HQ HI E2). rewrite IM, Rminus_0_r in I.
  set (l := t - parameter_lower_bound c) in *.
  assert (PA : 0 < / a) by (apply Rinv_0_lt_compat; lra). assert (PB : 0 < / b) by (apply Rinv_0_lt_compat; lra).
  assert (I1 : / b * (a * l) <= / b * s) by (apply Rmult_le_compat_l; lra). assert (I2 : / a * s <= / a * (b * l)) by (apply Rmult_le_compat_l; lra).
  split; [replace (a / b * l) with (/ b * (a * l)) by (field; lra); lra | replace (b / a * l) with (/ a * (b * l)) by (field; lra); lra].
Qed.
Print Assumptions round_trip.

(** A new ArcLengthIntegrator returns the length of a curve with Lipschitz speed, within the bound. *)
Theorem arc_length_total : forall g c p0 t k G F L hs,
  arc_length_integrator c = Some p0 -> length k = length (c_k c) ->
  0 < initial_step_size_target c <= maximum_step_size c -> 0 <= target_accuracy c -> parameter_lower_bound c <= t ->
  (forall u, parameter_lower_bound c <= u <= t -> g k u = Some (G u)) ->
  primitive_on G F (parameter_lower_bound c) t -> lipschitz_on L G (parameter_lower_bound c) t -> 0 <= L ->
  0 < hs -> L * hs * hs <= 6 * Rmin (target_accuracy c) (1 / 10) ->
  (forall u, parameter_lower_bound c <= u <= t -> / 10 ^ 13 <= hs /\ Rabs u * / 10 ^ 13 <= hs) ->
  exists y p' n0, (forall n, (n0 <= n)%nat -> integrator_evaluate n (to_scalar g) p0 t k = (Ret (Some y), p')) /\
    Rabs (y - (F t - F (parameter_lower_bound c))) <= L * maximum_step_size c / 2 * (t - parameter_lower_bound c).
Proof.
  intros g c p0 t k G F L hs A LK HM T0 LT HG P LI L0 HS LH SM. assert (A' := A). apply arc_length_new in A'. subst p0.
  destruct (quadrature_ends g (Full (parameter_lower_bound c) [0] (c_k c)) (config_settings c) _ t (Values None None (Some k)) (maximum_step_size c) (initial_step_size_target c) (target_accuracy c) hs 0 G L
    eq_refl eq_refl eq_refl eq_refl eq_refl T0 HM HS (hist_new _ _ _) (or_introl eq_refl) LT eq_refl LK HG LI L0 LH SM) as [x [p' [n0 S]]].
  assert (E : forall n, (n0 <= n)%nat -> integrator_evaluate n (to_scalar g) (fresh_ivp (Full (parameter_lower_bound c) [0] (c_k c)) (config_settings c)) t k = (Ret (Some (nth0 0 x)), p')).
  { intros n N. unfold integrator_evaluate. rewrite (S n N). reflexivity. }
  exists (nth0 0 x), p', n0. split; [exact E |].
  destruct (arc_length_evaluate g c _ _ n0 t k _ p' G A ltac:(repeat split; lra) (uses_new _ _) (E n0 (Nat.le_refl _)) HG) as [_ [_ [Q _]]].
  apply Q; assumption.
Qed.
Print Assumptions arc_length_total.

(** The functors: made for a domain that starts at or after the start of the integration; they throw
    exactly outside the domain widened by the tolerance, and take a parameter outside the domain for the
    closest one inside. *)
Theorem functor_evaluates : forall g v c p n lo hi k tol eps u p' m T,
  (forall k t x, exists y, g k t x = Some y) -> length (f_x0 v) = 1%nat ->
  max_step c = Some m -> 0 <= m -> (exists h0, req_initial c = Some h0 /\ 0 <= h0) -> target c = Some T -> 0 <= T -> req_min c = 0 ->
  uses g (fresh_ivp v c) p -> make_functor n g p lo hi k tol eps = (Ret u, p') ->
  f_t0 v <= lo /\ f_t0 v < hi /\ 0 <= eps /\
  exists E x, interpolates E (to_ode g) (within m (Rmin T (1 / 10)) 0) k (f_t0 v) (f_x0 v) hi x /\
  forall t,
    (lo <= hi -> 0 < tol -> lo - tol < t < hi + tol -> apply u t = Ret (E O (Rmax lo (Rmin t hi)))) /\
    (hi < lo \/ tol <= 0 \/ t <= lo - tol \/ hi + tol <= t -> apply u t = Exc).
Proof.
  intros g v c p n lo hi k tol eps u p' m T TOT LX M M0 HI TT T0 RM H E. apply uses_history in H.
  unfold make_functor in E. destruct (dense_solve n (to_ode g) p hi (Values None None (Some k))) as [[d | |] p1] eqn:S; try discriminate.
  assert (TOT' : forall k t x, exists y, to_ode g k t x = Some y).
  { intros k1 t1 x1. unfold to_ode. destruct (TOT k1 t1 (nth0 0 x1)) as [y ->]. eexists. reflexivity. }
  assert (K : keeps_dimension (length (f_x0 v)) (to_ode g)) by (rewrite LX; apply scalar_keeps).
  assert (XN : f_x0 v <> []) by (intro Q; rewrite Q in LX; discriminate).
  destruct (dense_solve_interpolates (to_ode g) v c p n hi _ d p1 m T 0 K TOT' XN M M0 HI TT T0 RM (Rle_refl 0) H S)
    as [LT [OS [OE [EE [x [EV [_ [IN _]]]]]]]]. cbn [used f_t0 f_x0 f_k v_t0 v_x0 v_k] in *.
  rewrite OS, OE in E. destruct (leb (f_t0 v) lo && leb (hi - eps) hi) eqn:C; [| discriminate]. injection E as <- _.
  apply andb_true_iff in C. destruct C as [C1 C2]. apply leb_iff in C1, C2.
  split; [exact C1 |]. split; [exact LT |]. split; [lra |].
  exists EE, x. split; [exact IN |]. intro t. unfold apply, saturate. cbn [u_lo u_hi u_tol u_dense]. split.
  - intros LH TP B. rewrite leb_t by exact LH.
    destruct (Rlt_le_dec t lo) as [L1 | L1].
    + rewrite (ltb_t t lo) by exact L1. rewrite (Rmin_left t hi), (Rmax_left lo t) by lra. rewrite ltb_t by (rewrite Rabs_right; lra). apply EV. lra.
    + rewrite (ltb_f t lo) by exact L1. destruct (Rlt_le_dec hi t) as [L2 | L2].
      * rewrite (ltb_t hi t) by exact L2. rewrite (Rmin_right t hi), (Rmax_right lo hi) by lra. rewrite ltb_t by (rewrite Rabs_left; lra). apply EV. lra.
      * rewrite (ltb_f hi t) by exact L2. rewrite (Rmin_left t hi), (Rmax_right lo t) by lra. rewrite Rminus_diag_eq by reflexivity. rewrite Rabs_R0.
        rewrite ltb_t by exact TP. apply EV. lra.
  - intro B. destruct (Rle_lt_dec lo hi) as [LH | LH]; [| rewrite leb_f by exact LH; reflexivity].
    rewrite leb_t by exact LH.
    assert (NO : forall s, tol <= Rabs (s - t) -> ltb (Rabs (s - t)) tol = false) by (intros s Q; apply ltb_f; exact Q).
    destruct (Rlt_le_dec t lo) as [L1 | L1].
    + rewrite (ltb_t t lo) by exact L1. rewrite NO; [reflexivity |]. rewrite Rabs_right; lra.
    + rewrite (ltb_f t lo) by exact L1. destruct (Rlt_le_dec hi t) as [L2 | L2].
      * rewrite (ltb_t hi t) by exact L2. rewrite NO; [reflexivity |]. rewrite Rabs_left; lra.
      * rewrite (ltb_f hi t) by exact L2. rewrite NO; [reflexivity |]. rewrite Rminus_diag_eq by reflexivity. rewrite Rabs_R0. lra.
Qed.
Print Assumptions functor_evaluates.

(** For a quadratic speed, IntegralFunction gives the exact length from the lower bound of the
    configuration, not from the start p0 of its domain. *)
Theorem integral_function_quadratic : forall g c pa p n lo hi k tol u p' G F,
  arc_length_integrator c = Some pa -> usable c -> (forall k t, exists y, g k t = Some y) ->
  uses (to_scalar g) pa p -> integral_function n g p lo hi k tol = (Ret u, p') ->
  (forall t, parameter_lower_bound c <= t <= hi -> g k t = Some (G t)) -> quadratic G -> primitive_on G F (parameter_lower_bound c) hi ->
  forall t, lo <= hi -> 0 < tol -> lo - tol < t < hi + tol ->
  apply u t = Ret (Some (F (Rmax lo (Rmin t hi)) - F (parameter_lower_bound c))).
Proof.
  intros g c pa p n lo hi k tol u p' G F A [U1 [U2 U3]] TOT H E HG QG P t LH TP B. apply arc_length_new in A. subst pa.
  assert (TOT' : forall k t (x : R), exists y, to_scalar g k t x = Some y) by (intros k1 t1 x1; apply TOT).
  destruct (functor_evaluates (to_scalar g) (Full (parameter_lower_bound c) [0] (c_k c)) (config_settings c) p n lo hi k tol 0 u p' (maximum_step_size c) (target_accuracy c) TOT' eq_refl eq_refl U2
    (ex_intro _ _ (conj eq_refl U1)) eq_refl U3 eq_refl H E) as [L1 [L2 [_ [EE [x [IN Q]]]]]]. cbn [f_t0 f_x0] in *.
  destruct (Q t) as [Q1 _]. rewrite (Q1 LH TP B). f_equal. destruct QG as [a [b [c0 QG]]].
  destruct (interpolates_quadratic _ g _ _ _ _ _ _ IN G F a b c0 HG P QG) as [_ [_ [_ V]]].
  rewrite V; [f_equal; ring | exact L2 |].
  assert (R1 := Rmax_l lo (Rmin t hi)). assert (R2 := Rmin_r t hi). assert (R3 : Rmax lo (Rmin t hi) <= hi) by (apply Rmax_lub; lra). lra.
Qed.
Print Assumptions integral_function_quadratic.

(** Concrete integrators: unit speed from parameter 0, step 1, accuracy 1/10. *)
Definition unit_speed : integrand := fun _ _ => Some 1.
Lemma unit_total : forall k t, exists y, unit_speed k t = Some y.
Proof. intros k t. exists 1. reflexivity. Qed.
Definition ex_config (image : R) : config := Config 0 image [0; 0] 1 1 (1 / 10).
Lemma unit_rk3 : forall k t h x, rk3 (to_ode (to_scalar unit_speed)) k t h [x] = Some ([x + h], [0]).
Proof.
  intros k t h x. unfold rk3, to_ode, to_scalar, unit_speed. cbn. f_equal. f_equal; f_equal; [field |].
  match goal with |- Rabs ?a = _ => replace a with 0 by field end. apply Rabs_R0.
Qed.
Lemma config_acceptable : forall i, acceptable 1 1 (1 / 10) 0 (config_settings (ex_config i)).
Proof. intro i. unfold acceptable. cbn. repeat split; lra. Qed.
Lemma unit_evaluate : forall i t p0, arc_length_integrator (ex_config i) = Some p0 -> 0 <= t <= 1 ->
  exists p', integrator_evaluate 2 (to_scalar unit_speed) p0 t [0; 0] = (Ret (Some t), p').
Proof.
  intros i t p0 A B. apply arc_length_new in A. subst p0. unfold integrator_evaluate.
  destruct (fresh_one_step O (to_ode (to_scalar unit_speed)) (Full 0 [0] [0; 0]) (config_settings (ex_config i)) 1 1 (1 / 10) 0 t _ _ (config_acceptable i) ltac:(discriminate)
    ltac:(cbn; lra) ltac:(cbn; lra) (unit_rk3 _ _ _ _) ex_norm) as [p' [S _]].
  exists p'.
  assert (S' : solve 2 (to_ode (to_scalar unit_speed)) (fresh_ivp (Full 0 [0] [0; 0]) (config_settings (ex_config i))) t (Values None None (Some [0; 0])) = (Ret (Some [0 + (t - 0)]), p')) by exact S.
  cbn [parameter_lower_bound c_k ex_config]. rewrite S'. cbn. do 3 f_equal. ring.
Qed.
Example arc_length_evaluate_example : exists p0 p', arc_length_integrator (ex_config 0) = Some p0 /\ usable (ex_config 0) /\
  integrator_evaluate 2 (to_scalar unit_speed) p0 (1 / 2) [0; 0] = (Ret (Some (1 / 2)), p').
Proof.
  destruct (unit_evaluate 0 (1 / 2) _ eq_refl) as [p' E]; [lra |]. eexists. exists p'. split; [reflexivity |]. split; [| exact E].
  unfold usable. cbn. lra.
Qed.
Lemma unit_functor : forall i lo, 0 <= lo -> exists d p', make_functor 2 (to_scalar unit_speed) (fresh_ivp (Full 0 [0] [0; 0]) (config_settings (ex_config i))) lo 1 [0; 0] (1 / 10) 0
  = (Ret (Functor d lo 1 (1 / 10)), p').
Proof.
  intros i lo L. assert (ES := eps_small).
  destruct (fresh_dense_step O (to_ode (to_scalar unit_speed)) (Full 0 [0] [0; 0]) (config_settings (ex_config i)) 1 1 (1 / 10) 1 (Values None None (Some [0; 0])) _ _ (config_acceptable i) ltac:(discriminate) eq_refl
    ltac:(cbn; lra) ltac:(cbn; lra) (unit_rk3 _ _ _ _) ex_norm) as [p' S].
  eexists. exists p'. unfold make_functor. rewrite S. cbn [out_start out_end map last g_t0 g_t1 f_t0]. rewrite (leb_t 0 lo), (leb_t (1 - 0) 1) by lra. reflexivity.
Qed.

(** The documented start of IntegralFunction's integration domain is not where the integral starts. *)
Theorem integral_from_p0_refuted : exists g c p0 u p', arc_length_integrator c = Some p0 /\ usable c /\
  integral_function 2 g p0 (1 / 2) 1 [0; 0] (1 / 10) = (Ret u, p') /\ (forall k t, g k t = Some 1) /\
  apply u (1 / 2) = Ret (Some (1 / 2)).
Proof.
  destruct (unit_functor 0 (1 / 2) ltac:(lra)) as [d [p' S]].
  exists unit_speed, (ex_config 0). eexists. eexists. exists p'. split; [reflexivity |]. assert (U : usable (ex_config 0)) by (unfold usable; cbn; lra).
  split; [exact U |]. split; [exact S |]. split; [reflexivity |].
  rewrite (integral_function_quadratic unit_speed (ex_config 0) _ _ 2 (1 / 2) 1 [0; 0] (1 / 10) _ p' (fun _ => 1) (fun t => t) eq_refl U) with (1 := unit_total) (2 := uses_new _ _) (3 := S); try lra; try reflexivity.
  - cbn. rewrite Rmin_left, Rmax_left by lra. do 2 f_equal. ring.
  - exists 1, 0, 0. intro t. ring.
  - intros t _. apply derivable_pt_lim_id.
Qed.
Print Assumptions integral_from_p0_refuted.

(** image_lower_bound, documented as the lower bound or constant of the primitive, has no effect on
    ArcLengthIntegrator. *)
Theorem image_lower_bound_refuted : exists g c p0 p', image_lower_bound c = 7 /\ usable c /\ arc_length_integrator c = Some p0 /\
  integrator_evaluate 2 (to_scalar g) p0 (parameter_lower_bound c) [0; 0] = (Ret (Some 0), p').
Proof.
  destruct (unit_evaluate 7 0 _ eq_refl) as [p' E]; [lra |]. exists unit_speed, (ex_config 7). eexists. exists p'.
  split; [reflexivity |]. split; [unfold usable; cbn; lra |]. split; [reflexivity |]. exact E.
Qed.
Print Assumptions image_lower_bound_refuted.

(** InverseFunction's epsilon, documented as shrinking s1, changes nothing unless it is negative, and
    then there is no functor at all. *)
Theorem inverse_epsilon : forall g c pi p n s0 s1 k tol eps,
  inverse_arc_length_integrator c = Some pi -> usable c -> (forall k t x, exists y, g k t x = Some y) -> uses g pi p ->
  (0 <= eps -> inverse_function n g p s0 s1 k tol eps = inverse_function n g p s0 s1 k tol 0) /\
  (eps < 0 -> forall u, fst (inverse_function n g p s0 s1 k tol eps) <> Ret u).
Proof.
  intros g c pi p n s0 s1 k tol eps A [U1 [U2 U3]] TOT H. apply inverse_new in A. subst pi. apply uses_history in H.
  unfold inverse_function, make_functor.
  destruct (dense_solve n (to_ode g) p s1 (Values None None (Some k))) as [[d | |] p1] eqn:S; [| split; [reflexivity | discriminate] | split; [reflexivity | discriminate]].
  assert (TOT' : forall k t x, exists y, to_ode g k t x = Some y).
  { intros k1 t1 x1. unfold to_ode. destruct (TOT k1 t1 (nth0 0 x1)) as [y ->]. eexists. reflexivity. }
  destruct (dense_solve_interpolates (to_ode g) (Full (image_lower_bound c) [parameter_lower_bound c] (c_k c)) (config_settings c) p n s1 _ d p1 (maximum_step_size c) (target_accuracy c) 0 (scalar_keeps g) TOT' ltac:(discriminate) eq_refl U2
    (ex_intro _ _ (conj eq_refl U1)) eq_refl U3 eq_refl (Rle_refl 0) H S) as [LT [OS [OE _]]].
  rewrite OS, OE. split.
  - intro EP. rewrite (leb_t (s1 - eps) s1), (leb_t (s1 - 0) s1) by lra. reflexivity.
  - intros EN u. rewrite (leb_f (s1 - eps) s1) by lra. rewrite andb_false_r. discriminate.
Qed.
Print Assumptions inverse_epsilon.

Example functor_evaluates_example : exists u p', make_functor 2 (to_scalar unit_speed) (fresh_ivp (Full 0 [0] [0; 0]) (config_settings (ex_config 0))) 0 1 [0; 0] (1 / 10) 0 = (Ret u, p') /\
  apply u (105 / 100) = Ret (Some 1) /\ apply u (11 / 10) = Exc.
Proof.
  destruct (unit_functor 0 0 ltac:(lra)) as [d [p' S]]. eexists. exists p'. split; [exact S |]. assert (U : usable (ex_config 0)) by (unfold usable; cbn; lra).
  split.
  - rewrite (integral_function_quadratic unit_speed (ex_config 0) _ _ 2 0 1 [0; 0] (1 / 10) _ p' (fun _ => 1) (fun t => t) eq_refl U) with (1 := unit_total) (2 := uses_new _ _) (3 := S); try lra; try reflexivity.
    + cbn. rewrite Rmin_right, Rmax_right by lra. do 2 f_equal. ring.
    + exists 1, 0, 0. intro t. ring.
    + intros t _. apply derivable_pt_lim_id.
  - destruct U as [U1 [U2 U3]].
    assert (TOT : forall k t (y : R), exists z, to_scalar unit_speed k t y = Some z) by (intros k t y; exists 1; reflexivity).
    destruct (functor_evaluates (to_scalar unit_speed) (Full 0 [0] [0; 0]) (config_settings (ex_config 0)) _ 2 0 1 [0; 0] (1 / 10) 0 _ p' 1 (1 / 10) TOT eq_refl eq_refl ltac:(lra)
      (ex_intro _ _ (conj eq_refl Rle_0_1)) eq_refl ltac:(lra) eq_refl (uses_new (to_scalar unit_speed) (fresh_ivp (Full 0 [0] [0; 0]) (config_settings (ex_config 0)))) S)
      as [_ [_ [_ [E [x [_ Q]]]]]].
    apply (Q (11 / 10)). lra.
Qed.
Example inverse_example : exists p0 p', inverse_arc_length_integrator (ex_config 0) = Some p0 /\
  integrator_evaluate 2 (to_scalar unit_speed) p0 (1 / 2) [0; 0] = (Ret (Some (1 / 2)), p').
Proof.
  (* with image and parameter starting at 0 and unit speed both problems are the same *)
  destruct (unit_evaluate 0 (1 / 2) _ eq_refl) as [p' E]; [lra |]. eexists. exists p'. split; [reflexivity |]. exact E.
Qed.
Example integrators_refuse_example : exists pa pi, arc_length_integrator (ex_config 0) = Some pa /\ inverse_arc_length_integrator (ex_config 0) = Some pi /\
  integrator_evaluate 2 (to_scalar unit_speed) pa (-1) [0; 0] = (Exc, pa).
Proof.
  eexists. eexists. split; [reflexivity |]. split; [reflexivity |].
  refine (proj1 (integrators_refuse (to_scalar unit_speed) (ex_config 0) _ _ _ 2 (-1) [0; 0] eq_refl eq_refl) (uses_new _ _) _). cbn. lra.
Qed.
Example round_trip_example : exists pa pi p' q', arc_length_integrator (ex_config 0) = Some pa /\ inverse_arc_length_integrator (ex_config 0) = Some pi /\
  integrator_evaluate 2 (to_scalar unit_speed) pa (1 / 2) [0; 0] = (Ret (Some (1 / 2)), p') /\
  integrator_evaluate 2 (to_scalar unit_speed) pi (1 / 2) [0; 0] = (Ret (Some (1 / 2)), q') /\
  (forall k t, exists v, unit_speed k t = Some v /\ 1 <= v <= 1) /\ (forall k s t d, to_scalar unit_speed k s t = Some d -> / 1 <= d <= / 1).
Proof.
  destruct (unit_evaluate 0 (1 / 2) _ eq_refl) as [p' E]; [lra |]. eexists. eexists. exists p', p'. split; [reflexivity |]. split; [reflexivity |].
  split; [exact E |]. split; [exact E |]. split.
  - intros k t. exists 1. split; [reflexivity | lra].
  - intros k s0 t d Q. injection Q as <-. lra.
Qed.
Example arc_length_total_example : exists p0 y p' n0, arc_length_integrator (ex_config 0) = Some p0 /\
  (forall n, (n0 <= n)%nat -> integrator_evaluate n (to_scalar unit_speed) p0 30 [0; 0] = (Ret (Some y), p')) /\ y = 30.
Proof.
  destruct (arc_length_total unit_speed (ex_config 0) _ 30 [0; 0] (fun _ => 1) (fun t => t) 0 1 eq_refl eq_refl) as [y [p' [n0 [E B]]]]; try (cbn; lra); try reflexivity.
  - intros t _. apply derivable_pt_lim_id.
  - intros t u _ _. rewrite Rminus_diag_eq by reflexivity. rewrite Rabs_R0. lra.
  - cbn. rewrite Rmin_left; lra.
  - intros u Q. cbn in Q.
    assert (S1 : 0 < / 10 ^ 13 <= / 100).
    { split; [apply Rinv_0_lt_compat; apply pow_lt; lra |]. replace 100 with (10 ^ 2) by ring.
      apply Rinv_le_contravar; [apply pow_lt; lra |]. apply Rle_pow; [lra | lia]. }
    split; [lra |]. assert (Rabs u <= 30) by (apply Rabs_le; lra). assert (A := Rabs_pos u).
    apply Rle_trans with (30 * / 10 ^ 13); [apply Rmult_le_compat_r; lra | lra].
  - eexists. exists y, p', n0. split; [reflexivity |]. split; [exact E |].
    cbn [parameter_lower_bound ex_config maximum_step_size] in B. replace (0 * 1 / 2 * (30 - 0)) with 0 in B by field.
    assert (Z : y - (30 - 0) = 0).
    { destruct (Req_dec (y - (30 - 0)) 0) as [Q | Q]; [exact Q |]. apply Rabs_pos_lt in Q. lra. }
    lra.
Qed.
Example inverse_epsilon_example : exists pi u p', inverse_arc_length_integrator (ex_config 0) = Some pi /\
  inverse_function 2 (to_scalar unit_speed) pi 0 1 [0; 0] (1 / 10) (1 / 4) = (Ret u, p') /\ u_hi u = 1.
Proof.
  destruct (unit_functor 0 0 ltac:(lra)) as [d [p' S]]. eexists. exists (Functor d 0 1 (1 / 10)), p'. split; [reflexivity |]. split; [| reflexivity].
  assert (U : usable (ex_config 0)) by (unfold usable; cbn; lra).
  assert (TOT : forall k t (y : R), exists z, to_scalar unit_speed k t y = Some z) by (intros k t y; exists 1; reflexivity).
  rewrite (proj1 (inverse_epsilon (to_scalar unit_speed) (ex_config 0) _ _ 2 0 1 [0; 0] (1 / 10) (1 / 4) eq_refl U TOT (uses_new _ _))) by lra.
  exact S.
Qed.
