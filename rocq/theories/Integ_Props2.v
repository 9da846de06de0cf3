(** C89: when Solve comes to an end. *)
From Coq Require Import Reals List Bool Lra Lia PeanoNat.
From Verif Require Import Integ_Model Integ_Spec Integ_Proofs Integ_Proofs2 Integ_Proofs3 Integ_Proofs4 Integ_Proofs5 Integ_Proofs6 Integ_Proofs7 Integ_Proofs8 Integ_Proofs9 Integ_Proofs10 Integ_Proofs11 Integ_Proofs12 Integ_Props.
Import ListNotations.
Local Open Scope R_scope.

(** The fuel only decides how long the loops are watched: an outcome stays the same with more fuel. *)
Lemma step_once_fuel : forall n n' f s hm a at0 r s', step_once n f s hm a at0 = (r, s') -> r <> More -> (n <= n')%nat ->
  step_once n' f s hm a at0 = (r, s').
Proof.
  induction n as [| n IH]; intros n' f s hm a at0 r s' H NM L; cbn [step_once] in H; [injection H as <- _; contradiction |].
  destruct n' as [| n']; [lia |]. cbn [step_once].
  destruct (attempt_size s hm a) as [lim a2]. destruct (step f s a2) as [[e | |] s1]; auto.
  destruct (calc_adjusted s1 e a2 at0) as [[[[] next] |] at']; auto. apply IH; auto. lia.
Qed.
Lemma no_further_fuel : forall n n' f s pub upd bnd r s', no_further n f s pub upd bnd = (r, s') -> r <> More -> (n <= n')%nat ->
  no_further n' f s pub upd bnd = (r, s').
Proof.
  intros n n' f s pub upd bnd r s' H NM L. unfold no_further in *. destruct (negb (initialized s)); [exact H |].
  destruct (_ || _); [exact H |]. destruct (step_target s pub upd bnd) as [r0 [t |]]; [| exact H].
  assert (G : (if ltb (t - time s) 0 then (Exc, s) else match first_attempt s with None => (Exc, s) | Some a =>
     match step_once n f s (t - time s) a false with
      | (Ret full, s1) => if full || leb t (time s1) then (Ret r0, set_time s1 t) else (Ret TimeHasAdvanced, s1)
      | (Exc, s1) => (Exc, s1) | (More, s1) => (More, s1) end end) = (r, s') ->
    (if ltb (t - time s) 0 then (Exc, s) else match first_attempt s with None => (Exc, s) | Some a =>
     match step_once n' f s (t - time s) a false with
      | (Ret full, s1) => if full || leb t (time s1) then (Ret r0, set_time s1 t) else (Ret TimeHasAdvanced, s1)
      | (Exc, s1) => (Exc, s1) | (More, s1) => (More, s1) end end) = (r, s')).
  { intro G. destruct (ltb (t - time s) 0); [exact G |]. destruct (first_attempt s) as [a |]; [| exact G].
    destruct (step_once n f s (t - time s) a false) as [r1 s1] eqn:SO.
    assert (N1 : r1 <> More) by (destruct r1; try discriminate; injection G as <- _; contradiction).
    rewrite (step_once_fuel n n' _ _ _ _ _ _ _ SO N1 L). exact G. }
  destruct (xc s) as [[| y l] |]; auto.
Qed.
Lemma to_time_fuel : forall n n' f s tf r s', to_time n f s tf = (r, s') -> r <> More -> (n <= n')%nat -> to_time n' f s tf = (r, s').
Proof.
  induction n as [| n IH]; intros n' f s tf r s' H NM L; cbn [to_time] in H; [injection H as <- _; contradiction |].
  destruct n' as [| n']; [lia |]. cbn [to_time]. cbv zeta in *.
  destruct (no_further n f s None None (Some (match max_step (sets s) with Some m => Rmin tf (time s + m) | None => tf end))) as [r1 s1] eqn:NF.
  assert (N1 : r1 <> More) by (destruct r1; try discriminate; injection H as <- _; contradiction).
  rewrite (no_further_fuel n n' _ _ _ _ _ _ _ NF N1) by lia.
  destruct r1 as [x | |]; auto. destruct (ltb (time s1) tf); auto. apply IH; auto. lia.
Qed.
Theorem solve_outcome_unique : forall n n' f p tf w r p', solve n f p tf w = (r, p') -> r <> More -> (n <= n')%nat ->
  solve n' f p tf w = (r, p').
Proof.
  intros n n' f p tf w r p' H NM L. destruct (sanitize p tf w) as [u |] eqn:SV; [| unfold solve in *; rewrite SV in *; exact H].
  rewrite (solve_unfold n f p tf w u SV) in H. rewrite (solve_unfold n' f p tf w u SV). cbv zeta in *.
  match type of H with (let '(_, _) := ?x in _) = _ => destruct x as [[[] | |] s1] end; auto.
  destruct (to_time n f s1 tf) as [r1 s2] eqn:TT.
  assert (N1 : r1 <> More) by (destruct r1; try discriminate; injection H as <- _; contradiction).
  rewrite (to_time_fuel n n' _ _ _ _ _ TT N1 L). exact H.
Qed.
Print Assumptions solve_outcome_unique.
Example solve_outcome_unique_example : exists p', forall n,
  solve (2 + n) ex_f (fresh_ivp ex_v ex_c) (1 / 2) no_values = (Ret (Some [3 + 2 * (1 / 2 - 0)]), p').
Proof. destruct (ex_solve O) as [p' S]. exists p'. intro n. apply (solve_outcome_unique 2); [exact S | discriminate | lia]. Qed.

(** A Solve that starts from its initial values ends with a state, whatever the calls before returned or
    threw, if steps up to some positive size meet the accuracy and that size is ten times the smallest
    step. *)
Theorem solve_ends : forall f v c p tf w m h0 T r hs,
  keeps_dimension (length (f_x0 v)) f ->
  max_step c = Some m -> req_initial c = Some h0 -> target c = Some T -> req_min c = r ->
  0 <= T -> 0 <= r <= h0 -> 0 < h0 <= m -> 0 < hs ->
  history f v c p ->
  (p = fresh_ivp v c \/ used v w <> current p \/ tf < time (integ p)) ->
  f_t0 (used v w) <= tf -> length (f_x0 (used v w)) = length (f_x0 v) -> length (f_k (used v w)) = length (f_k v) ->
  (forall t h x, f_t0 (used v w) <= t -> 0 <= h <= hs -> t + h <= tf -> length x = length (f_x0 v) ->
     exists x1 e, kutta_step f (f_k (used v w)) t h x x1 e /\ e <= Rmin T (1 / 10)) ->
  (forall t, f_t0 (used v w) <= t <= tf -> smallest_step r t <= hs / 10) ->
  exists x p' n0, forall n, (n0 <= n)%nat -> solve n f p tf w = (Ret (Some x), p').
Proof.
  intros f v c p tf w m h0 T r hs K M H0 TT RM T0 R0 HM HS H START LT LX LK SM SMALL.
  assert (TU : tuned m T r c).
  { assert (M0 : 0 <= m) by lra. refine (conj (conj (conj M M0) _) (conj TT (conj T0 (conj _ (proj1 R0))))); [exists h0; split; [exact H0 | lra] | rewrite RM; apply Rle_refl]. }
  assert (DP := history_defaults f v c p H).
  assert (SV : sanitize p tf w = Some (used v w)).
  { unfold sanitize. rewrite DP. change (or_default (v_t0 w) (f_t0 v)) with (f_t0 (used v w)).
    change (or_default (v_x0 w) (f_x0 v)) with (f_x0 (used v w)). change (or_default (v_k w) (f_k v)) with (f_k (used v w)).
    rewrite ltb_f by lra. rewrite LX, LK, ? Nat.eqb_refl. reflexivity. }
  destruct (history_sensible f v c p m T r TU H) as [c' [EC [A1 [A2 [A3 [A4 A5]]]]]].
  assert (AC : exists r', r' <= r /\ acceptable m h0 T r' (sets (integ p))).
  { destruct A5 as [A5 | A5]; [exists r | exists 0]; (split; [lra |]); unfold acceptable; rewrite EC, A1, A2, A3, A5; repeat split; auto; lra. }
  destruct AC as [r' [RR AC]].
  destruct (solve_from_start f p tf w (used v w) m h0 T r' hs ltac:(rewrite LX; exact K) SV AC HS) as [n0 RET].
  - destruct START as [-> | START]; [left; split; reflexivity | right; split; [exact START | exact I]].
  - rewrite LX. exact SM.
  - intros t Q. apply Rle_trans with (2 := SMALL t Q). unfold smallest_step. apply Rle_max_compat_l. exact RR.
  - destruct (RET n0 (Nat.le_refl _)) as [x [p' S]]. exists x, p', n0. intros n L.
    apply (solve_outcome_unique n0); [exact S | discriminate | exact L].
Qed.
Print Assumptions solve_ends.

(** In particular the integral of an integrand with Lipschitz constant L is computed, however large L,
    as long as the step size that L requires is ten times the smallest step. *)
Theorem quadrature_ends : forall g v c p tf w m h0 T hs y0 G L,
  f_x0 v = [y0] ->
  max_step c = Some m -> req_initial c = Some h0 -> target c = Some T -> req_min c = 0 ->
  0 <= T -> 0 < h0 <= m -> 0 < hs ->
  history (to_ode (to_scalar g)) v c p ->
  (p = fresh_ivp v c \/ used v w <> current p \/ tf < time (integ p)) ->
  f_t0 (used v w) <= tf -> length (f_x0 (used v w)) = 1%nat -> length (f_k (used v w)) = length (f_k v) ->
  (forall t, f_t0 (used v w) <= t <= tf -> g (f_k (used v w)) t = Some (G t)) ->
  lipschitz_on L G (f_t0 (used v w)) tf -> 0 <= L -> L * hs * hs <= 6 * Rmin T (1 / 10) ->
  (forall t, f_t0 (used v w) <= t <= tf -> / 10 ^ 13 <= hs /\ Rabs t * / 10 ^ 13 <= hs) ->
  exists x p' n0, forall n, (n0 <= n)%nat -> solve n (to_ode (to_scalar g)) p tf w = (Ret (Some x), p').
Proof.
  intros g v c p tf w m h0 T hs y0 G L X0 M H0 TT RM T0 HM HS H START LT LX LK HG LI L0 LH SMALL.
  apply (solve_ends (to_ode (to_scalar g)) v c p tf w m h0 T 0 hs); auto; try lra.
  - rewrite X0. apply scalar_keeps.
  - rewrite X0. exact LX.
  - rewrite X0. apply (quad_smooth g (f_k (used v w)) (f_t0 (used v w)) tf G L hs _ HG LI L0 LH).
  - intros t Q. destruct (SMALL t Q) as [S1 S2]. unfold smallest_step.
    assert (E : / 10 ^ 14 = / 10 ^ 13 / 10) by (replace (10 ^ 14) with (10 ^ 13 * 10) by ring; field; apply pow_nonzero; lra).
    rewrite E. repeat apply Rmax_lub; lra.
Qed.
Print Assumptions quadrature_ends.

Example quadrature_ends_example : exists x p' n0, forall n, (n0 <= n)%nat ->
  solve n (to_ode (to_scalar (fun _ t => Some (Rabs t)))) (fresh_ivp (Full (-1) [0] []) ex_c) 1 no_values = (Ret (Some x), p').
Proof.
  apply (quadrature_ends (fun _ t => Some (Rabs t)) (Full (-1) [0] []) ex_c _ 1 no_values 1 1 (1 / 10) (1 / 10) 0 Rabs 1); auto; try (cbn; lra).
  - apply hist_new.
  - intros t u _ _. cbn. rewrite Rmult_1_l. apply Rabs_triang_inv2.
  - rewrite Rmin_left; lra.
  - cbn [f_t0 used]. intros t Q. cbn in Q.
    assert (B : 0 < / 10 ^ 13 <= 1 / 10).
    { split; [apply Rinv_0_lt_compat; apply pow_lt; lra |]. replace (1 / 10) with (/ 10 ^ 1) by (cbn; field).
      apply Rinv_le_contravar; [apply pow_lt; lra |]. apply Rle_pow; [lra | lia]. }
    split; [lra |]. assert (Rabs t <= 1) by (apply Rabs_le; lra). assert (A := Rabs_pos t).
    apply Rle_trans with (1 * / 10 ^ 13); [apply Rmult_le_compat_r; lra | lra].
Qed.
Example solve_ends_example : exists x p' n0, forall n, (n0 <= n)%nat -> solve n ex_f (fresh_ivp ex_v ex_c) 1 no_values = (Ret (Some x), p').
Proof.
  apply (solve_ends ex_f ex_v ex_c _ 1 no_values 1 1 (1 / 10) 0 1); auto; try (cbn; lra).
  - apply ex_dim.
  - apply hist_new.
  - intros t h [| y [| ? ?]] T H L LX; try discriminate. exists [y + 2 * h], (state_norm [0]). split; [| exact ex_norm].
    apply (rk3_kutta ex_f _ t h [y]); [apply ex_dim | apply ex_rk3].
  - cbn [f_t0 used]. intros t Q. cbn in Q. unfold smallest_step.
    assert (B : 0 < / 10 ^ 14 <= 1 / 10).
    { split; [apply Rinv_0_lt_compat; apply pow_lt; lra |]. replace (1 / 10) with (/ 10 ^ 1) by (cbn; field).
      apply Rinv_le_contravar; [apply pow_lt; lra |]. apply Rle_pow; [lra | lia]. }
    assert (Rabs t <= 1) by (apply Rabs_le; lra). assert (A := Rabs_pos t).
    assert (Rabs t * / 10 ^ 14 <= 1 * / 10 ^ 14) by (apply Rmult_le_compat_r; lra). repeat apply Rmax_lub; lra.
Qed.

(** It need not end: a derivative that is NaN at the initial values keeps the step size control
    shrinking the step without an exception. *)
Theorem solve_nan_never_ends : forall f v c tf m h0 T r,
  max_step c = Some m -> req_initial c = Some h0 -> target c = Some T -> req_min c = r ->
  0 <= T -> 0 <= r <= h0 -> 0 < h0 <= m -> f_x0 v <> [] -> f_t0 v <= tf -> f (f_k v) (f_t0 v) (f_x0 v) = None ->
  forall n, fst (solve n f (fresh_ivp v c) tf no_values) = More.
Proof.
  intros f v c tf m h0 T r M H0 TT RM T0 R0 HM XN LT FN n.
  assert (AC : acceptable m h0 T r c) by (unfold acceptable; repeat split; auto; lra).
  destruct (fresh_start v c m h0 T r AC) as [s1 [EI [W [T1 [X1 [P1 [D1 [FA _]]]]]]]].
  assert (SV : sanitize (fresh_ivp v c) tf no_values = Some v) by (apply (sanitize_default (fresh_ivp v c) tf); exact LT).
  assert (ST : solve_start (fresh_ivp v c) tf v = fresh_ivp v c) by (apply (solve_start_same (fresh_ivp v c) tf); exact LT).
  rewrite (solve_unfold n f (fresh_ivp v c) tf no_values v SV). cbv zeta. rewrite ST.
  replace (initialized (integ (fresh_ivp v c))) with false by reflexivity. rewrite EI.
  assert (Q := to_time_nan n f s1 tf m _ (f_x0 v) h0 W D1 X1 XN ltac:(lra) FA ltac:(rewrite P1, T1; exact FN)).
  destruct (to_time n f s1 tf) as [r1 s2]. cbn in Q. subst r1. reflexivity.
Qed.
Print Assumptions solve_nan_never_ends.
Example solve_nan_never_ends_example : forall n, fst (solve n (fun _ _ _ => None) (fresh_ivp ex_v ex_c) 1 no_values) = More.
Proof. apply (solve_nan_never_ends _ ex_v ex_c 1 1 1 (1 / 10) 0); auto; try (cbn; lra). discriminate. Qed.

(** With maximum and initial step 0, the values of a default constructed IntegratorConfiguration, any
    evaluation beyond the initial time goes on for ever. *)
Theorem zero_steps_never_end : forall f v c tf T, keeps_dimension (length (f_x0 v)) f ->
  max_step c = Some 0 -> req_initial c = Some 0 -> target c = Some T -> req_min c = 0 -> 0 <= T -> f_x0 v <> [] -> f_t0 v < tf ->
  forall n, fst (solve n f (fresh_ivp v c) tf no_values) = More.
Proof.
  intros f v c tf T K M H0 TT RM T0 XN LT n.
  assert (TU : tuned 0 T 0 c).
  { refine (conj (conj (conj M (Rle_refl 0)) _) (conj TT (conj T0 (conj _ (Rle_refl 0))))); [exists 0; split; [exact H0 | lra] | rewrite RM; apply Rle_refl]. }
  assert (EI : exists s1, initialize (integ (fresh_ivp v c)) = (Ret tt, s1)).
  { unfold initialize, init_settings. cbn [fresh_ivp integ sets]. rewrite M, H0, TT, RM. cbn [optlt]. rewrite ltb_f by lra. eexists. reflexivity. }
  destruct EI as [s1 EI].
  destruct (initialize_well (integ (fresh_ivp v c)) s1 0 T 0 TU eq_refl I EI) as [W [E1 [E2 [E3 [E4 [_ [_ [_ [FA _]]]]]]]]]. cbn in E1, E2, E3, E4, FA.
  assert (SV : sanitize (fresh_ivp v c) tf no_values = Some v) by (apply (sanitize_default (fresh_ivp v c) tf); cbn; lra).
  assert (ST : solve_start (fresh_ivp v c) tf v = fresh_ivp v c) by (apply (solve_start_same (fresh_ivp v c) tf); cbn; lra).
  rewrite (solve_unfold n f (fresh_ivp v c) tf no_values v SV). cbv zeta. rewrite ST.
  replace (initialized (integ (fresh_ivp v c))) with false by reflexivity. rewrite EI.
  assert (Q := to_time_zero n f s1 tf _ (length (f_x0 v)) (f_x0 v) K W E4 E2 eq_refl XN ltac:(lra) ltac:(rewrite FA; exists 0; exact H0)).
  destruct (to_time n f s1 tf) as [r1 s2]. cbn in Q. subst r1. reflexivity.
Qed.
Print Assumptions zero_steps_never_end.
Example zero_steps_never_end_example : forall n, fst (solve n ex_f (fresh_ivp ex_v (Settings (Some 0) 0 (Some 0) (Some 0) (Some 0) true)) 1 no_values) = More.
Proof. apply (zero_steps_never_end _ ex_v _ 1 0); auto; try (cbn; lra); [apply ex_dim | discriminate]. Qed.

(** The requested minimum step size is lost when the problem starts over: a call that throws on a new
    problem because the minimum step does not meet the accuracy returns a value once other values have
    been solved for in between. *)
Theorem minimum_step_kept_refuted : exists f v c n p' o p1 x p2,
  solve n f (fresh_ivp v c) 1 no_values = (Exc, p') /\
  solve n f (fresh_ivp v c) 0 (Values (Some (-1)) None None) = (Ret o, p1) /\
  solve n f p1 1 no_values = (Ret (Some x), p2).
Proof.
  pose (v := Full 0 [0] []). pose (c := Settings (Some 1) 1 (Some 1) (Some (1 / 10)) None true).
  assert (K : forall n, keeps_dimension n late_jump) by (intros n k t x d L E; injection E as <-; rewrite map_length; exact L).
  assert (AC : acceptable 1 1 (1 / 10) 1 c) by (unfold acceptable; cbn; repeat split; lra).
  assert (SM : forall t h x, 0 <= h -> length x = 1%nat -> exists x1 e, kutta_step late_jump [] t h x x1 e /\ e <= 2 * h /\ (t + h < 3 / 4 -> e = 0)).
  { intros t h [| y [| ? ?]] H L; try discriminate.
    destruct (rk3 late_jump [] t h [y]) as [[x1 ev] |] eqn:RK; [| discriminate RK].
    exists x1, (state_norm ev). split; [apply (rk3_kutta late_jump [] t h [y]); [apply K | exact RK] |].
    unfold rk3, late_jump in RK. cbn in RK.
    assert (B : forall a b c0, Rabs (y + h * b + -1 * (y + h / 6 * a + 4 * (h / 6) * b + h / 6 * c0)) = Rabs (h / 6 * (2 * b - a - c0))).
    { intros a b c0. f_equal. field. }
    destruct (Rlt_dec t (3 / 4)), (Rlt_dec (t + h / 2) (3 / 4)), (Rlt_dec (t + h) (3 / 4));
      injection RK as <- <-; cbn [state_norm fold_right]; (rewrite Rmax_left by apply Rabs_pos); rewrite B;
      (split; [apply Rabs_le; lra | intro; try lra; match goal with |- Rabs ?q = 0 => replace q with 0 by field end; apply Rabs_R0]). }
  (* the call that throws *)
  assert (S0 : forall n, exists p', solve (S (S n)) late_jump (fresh_ivp v c) 1 no_values = (Exc, p')).
  { intro n. destruct (fresh_start v c 1 1 (1 / 10) 1 AC) as [s1 [EI [W [T1 [X1 [P1 [D1 [FA [RM TH]]]]]]]]]. cbn in T1, X1, P1, TH. rewrite Rmin_left in W by lra.
    assert (RK : rk3 late_jump (param s1) (time s1) (1 - time s1) [0] = Some ([1], [1])).
    { rewrite T1. unfold rk3, late_jump. cbn. destruct (Rlt_dec 0 (3 / 4)); [| lra]. destruct (Rlt_dec (0 + (1 - 0) / 2) (3 / 4)); [| lra].
      destruct (Rlt_dec (0 + (1 - 0)) (3 / 4)); [lra |]. f_equal. f_equal; f_equal; [field |].
      match goal with |- Rabs ?a = _ => replace a with (- (1)) by field end. rewrite Rabs_Ropp. apply Rabs_R1. }
    assert (TT := one_refusal n late_jump s1 1 [0] [1] [1] 1 (1 / 10) 1 W D1 X1 ltac:(discriminate) FA ltac:(rewrite T1; lra) ltac:(rewrite T1; lra) RK).
    specialize (TT ltac:(cbn; rewrite Rmax_left; lra) TH). rewrite RM in TT.
    specialize (TT ltac:(rewrite T1; unfold smallest_step; apply Rlt_le_trans with 1; [lra | apply Rmax_r])).
    assert (SV : sanitize (fresh_ivp v c) 1 no_values = Some v) by (apply (sanitize_default (fresh_ivp v c) 1); cbn; lra).
    assert (ST : solve_start (fresh_ivp v c) 1 v = fresh_ivp v c) by (apply (solve_start_same (fresh_ivp v c) 1); cbn; lra).
    rewrite (solve_unfold (S (S n)) late_jump (fresh_ivp v c) 1 no_values v SV). cbv zeta. rewrite ST.
    replace (initialized (integ (fresh_ivp v c))) with false by reflexivity. rewrite EI. rewrite TT. eexists. reflexivity. }
  (* the call in between: no jump up to time 0 *)
  assert (TINY : forall t hs, -1 <= t <= 1 -> 1 / 20 <= hs -> smallest_step 0 t <= hs / 10).
  { intros t hs Q HS. unfold smallest_step.
    assert (B : 0 < / 10 ^ 14 <= 1 / 1000).
    { split; [apply Rinv_0_lt_compat; apply pow_lt; lra |]. replace (1 / 1000) with (/ 10 ^ 3) by (cbn; field).
      apply Rinv_le_contravar; [apply pow_lt; lra |]. apply Rle_pow; [lra | lia]. }
    assert (Rabs t <= 1) by (apply Rabs_le; lra). assert (A := Rabs_pos t).
    assert (Rabs t * / 10 ^ 14 <= 1 * / 10 ^ 14) by (apply Rmult_le_compat_r; lra). repeat apply Rmax_lub; lra. }
  assert (NE : used v (Values (Some (-1)) None None) <> v) by (intro Q; apply (f_equal f_t0) in Q; cbn in Q; lra).
  destruct (solve_from_start late_jump (reset_cached (fresh_ivp v c) v) 0 (Values (Some (-1)) None None) (Full (-1) [0] []) 1 1 (1 / 10) 0 1) as [n1 S1].
  { apply K. }
  { unfold sanitize. cbn. rewrite ltb_f by lra. reflexivity. }
  { apply (restart_settings 1 1 (1 / 10) 1). exact AC. }
  { lra. }
  { right. split; [left; exact NE | exact I]. }
  { intros t h x T H TH LX. destruct (SM t h x ltac:(lra) LX) as [x1 [e [KS [_ Z]]]]. exists x1, e. split; [exact KS |].
    rewrite Z by lra. rewrite Rmin_left; lra. }
  { intros t Q. cbn in Q. apply TINY; lra. }
  assert (S1' : exists x p1, solve n1 late_jump (fresh_ivp v c) 0 (Values (Some (-1)) None None) = (Ret (Some x), p1)).
  { destruct (S1 n1 (Nat.le_refl _)) as [x [p1 Q]].
    assert (SS : same_setup (sets (integ (reset_cached (fresh_ivp v c) v))) (sets (integ (fresh_ivp v c)))) by (repeat split; reflexivity).
    assert (N1 : used (defaults (reset_cached (fresh_ivp v c) v)) (Values (Some (-1)) None None) <> current (reset_cached (fresh_ivp v c) v)) by exact NE.
    destruct (solve_restart n1 late_jump (reset_cached (fresh_ivp v c) v) (fresh_ivp v c) 0 (Values (Some (-1)) None None) _ _ eq_refl SS
      (or_introl N1) (or_introl NE) Q ltac:(discriminate)) as [p1' [Q' _]].
    exists x, p1'. exact Q'. }
  destruct S1' as [x1 [p1 S1']].
  assert (H1 : history late_jump v c p1) by (apply (hist_solve late_jump v c n1 _ _ _ _ _ (hist_new _ _ _) S1'); discriminate).
  assert (U1 : current p1 = Full (-1) [0] [] /\ sets (integ p1) = Settings (Some 1) 0 (Some 1) (Some (1 / 10)) (Some (1 / 10)) true).
  { clear - S1'. unfold solve in S1'.
    assert (SV : sanitize (fresh_ivp v c) 0 (Values (Some (-1)) None None) = Some (Full (-1) [0] [])) by (unfold sanitize; cbn; rewrite ltb_f by lra; reflexivity).
    rewrite SV in S1'.
    assert (SA : same_values (Full (-1) [0] []) (current (fresh_ivp v c)) = false) by (unfold same_values; cbn; rewrite eqb_f by lra; reflexivity).
    rewrite SA in S1'. cbn [negb orb] in S1'. cbn [reset_cached integ initialized] in S1'.
    unfold initialize, init_settings in S1'. cbn [reset_cached integ sets max_step req_min req_initial target throws fresh_ivp c optlt] in S1'.
    rewrite (ltb_f 1 0), (ltb_f 1 1), (ltb_f (1 / 10) (1 / 10)) in S1' by lra.
    match type of S1' with match to_time n1 late_jump ?q _ with _ => _ end = _ => set (s1 := q) in S1' end.
    destruct (to_time n1 late_jump s1 0) as [[[] | |] s2] eqn:TT; try discriminate. injection S1' as _ <-.
    split; [reflexivity |]. cbn [set_integ integ].
    assert (W : well 1 (1 / 10) s1).
    { constructor; try reflexivity; try lra; try (exact I). intros a A. cbn in A. injection A as <-. lra. }
    destruct (to_time_inv (fun _ => True) late_jump 1 (1 / 10) 0 ltac:(auto) n1 s1 s2 W I ltac:(cbn; discriminate) ltac:(cbn; lra) TT) as [_ [_ [_ [_ [SS _]]]]].
    rewrite SS. reflexivity. }
  destruct U1 as [U1 U2].
  destruct (solve_from_start late_jump p1 1 no_values v 1 1 (1 / 10) 0 (1 / 20)) as [n2 S2].
  { apply K. }
  { rewrite <- (history_defaults late_jump v c p1 H1). apply sanitize_default. rewrite (history_defaults late_jump v c p1 H1). cbn. lra. }
  { rewrite U2. unfold acceptable. cbn. repeat split; lra. }
  { lra. }
  { right. split; [| exact I]. left. rewrite U1. intro Q. apply (f_equal f_t0) in Q. cbn in Q. lra. }
  { intros t h x T H TH LX. destruct (SM t h x ltac:(lra) LX) as [y1 [e [KS [B _]]]]. exists y1, e. split; [exact KS |]. rewrite Rmin_left; lra. }
  { intros t Q. cbn in Q. apply TINY; lra. }
  destruct (S2 n2 (Nat.le_refl _)) as [x2 [p2 S2']]. destruct (S0 (n1 + n2)%nat) as [p' S0'].
  exists late_jump, v, c, (S (S (n1 + n2))), p', (Some x1), p1, x2, p2.
  split; [exact S0' |]. split; [apply (solve_outcome_unique n1); [exact S1' | discriminate | lia] |].
  apply (solve_outcome_unique n2); [exact S2' | discriminate | lia].
Qed.
Print Assumptions minimum_step_kept_refuted.
