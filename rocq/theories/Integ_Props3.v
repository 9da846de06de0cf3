(** C90: DenseSolve and the functions it returns. *)
From Coq Require Import Reals List Bool Lra Lia PeanoNat.
From Verif Require Import Integ_Model Integ_Spec Integ_Proofs Integ_Proofs2 Integ_Proofs3 Integ_Proofs4 Integ_Proofs5 Integ_Proofs6 Integ_Proofs7 Integ_Proofs8 Integ_Proofs9 Integ_Proofs10 Integ_Proofs11 Integ_Proofs12 Integ_Props Integ_Props2.
Import ListNotations.
Local Open Scope R_scope.

Lemma used_sanitize : forall f v c p tf w u, history f v c p -> sanitize p tf w = Some u ->
  u = used v w /\ f_t0 (used v w) <= tf /\ length (f_x0 (used v w)) = length (f_x0 v).
Proof.
  intros f v c p tf w u H SV. destruct (sanitize_facts p tf w u SV) as [EU [LT [LU _]]]. assert (D := history_defaults f v c p H).
  rewrite D in EU, LU. change (u = used v w) in EU. subst u. auto.
Qed.

(** After any calls, returning or throwing, a returning DenseSolve gives a function of exactly the
    interval from the initial to the final time: it throws outside, and inside it interpolates a path of
    Kutta steps by cubics that match the states and the derivatives at every step. *)
Theorem dense_solve_interpolates : forall f v c p n tf w d p' m T r,
  keeps_dimension (length (f_x0 v)) f -> (forall k t x, exists y, f k t x = Some y) -> f_x0 v <> [] ->
  max_step c = Some m -> 0 <= m -> (exists h0, req_initial c = Some h0 /\ 0 <= h0) -> target c = Some T -> 0 <= T -> req_min c = r -> 0 <= r ->
  history f v c p -> dense_solve n f p tf w = (Ret d, p') ->
  f_t0 (used v w) < tf /\ out_start d = Some (f_t0 (used v w)) /\ out_end d = Some tf /\
  exists E x,
    (forall i t, f_t0 (used v w) <= t <= tf -> evaluate d i t = Ret (E i t)) /\
    (forall i t, t < f_t0 (used v w) \/ tf < t -> evaluate d i t = Exc) /\
    interpolates E f (within m (Rmin T (1 / 10)) r) (f_k (used v w)) (f_t0 (used v w)) (f_x0 (used v w)) tf x /\
    (forall i, E i (f_t0 (used v w)) = Some (nth i (f_x0 (used v w)) 0) /\ E i tf = Some (nth i x 0)).
Proof.
  intros f v c p n tf w d p' m T r K TOT XN M M0 HI TT T0 RM R0 H S.
  assert (TU : tuned m T r c) by (refine (conj (conj (conj M M0) HI) (conj TT (conj T0 (conj _ R0)))); rewrite RM; apply Rle_refl).
  assert (TU' := history_tuned f v c p m T r TU H). assert (DP := history_defaults f v c p H).
  rewrite <- DP in K, XN.
  destruct (dense_good n f p tf w d p' m T r K TU' XN S) as [x [u [s1 [s2 [SV [_ [DN [LX [TR _]]]]]]]]].
  destruct (used_sanitize f v c p tf w u H SV) as [-> [LT LU]].
  destruct (trace_time _ _ _ _ _ _ _ _ TR) as [_ LT']. specialize (LT' DN). split; [exact LT' |].
  assert (OS : out_start d = Some (f_t0 (used v w))).
  { destruct d as [| g d]; [contradiction |]. cbn. f_equal. apply (trace_start _ _ _ _ _ _ _ _ _ TR). }
  assert (OE := trace_end _ _ _ _ _ _ _ _ TR DN). split; [exact OS |]. split; [exact OE |].
  assert (IN := trace_interpolates _ _ _ _ _ _ _ _ TOT DN TR).
  exists (value_of d), x. split; [intros i t B; apply (evaluate_domain d i t _ _ OS OE); exact B |].
  split; [intros i t B; apply (evaluate_domain d i t _ _ OS OE); lra |]. split; [exact IN |].
  intro i. apply (interpolates_ends _ _ _ _ _ _ _ _ IN LT').
Qed.
Print Assumptions dense_solve_interpolates.

(** The final value is the one that a Solve which has to start over returns, on any problem with the
    same settings. *)
Theorem dense_solve_agrees : forall f v c p q n tf w d p' m T r,
  keeps_dimension (length (f_x0 v)) f -> (forall k t x, exists y, f k t x = Some y) -> f_x0 v <> [] ->
  max_step c = Some m -> 0 <= m -> (exists h0, req_initial c = Some h0 /\ 0 <= h0) -> target c = Some T -> 0 <= T -> req_min c = r -> 0 <= r ->
  history f v c p -> dense_solve n f p tf w = (Ret d, p') ->
  history f v c q -> (used v w <> current q \/ tf < time (integ q)) ->
  exists x q', solve n f q tf w = (Ret (Some x), q') /\ forall i, evaluate d i tf = Ret (Some (nth i x 0)).
Proof.
  intros f v c p q n tf w d p' m T r K TOT XN M M0 HI TT T0 RM R0 H S HQ START.
  assert (TU : tuned m T r c) by (refine (conj (conj (conj M M0) HI) (conj TT (conj T0 (conj _ R0)))); rewrite RM; apply Rle_refl).
  assert (TU' := history_tuned f v c p m T r TU H). assert (DP := history_defaults f v c p H). assert (DQ := history_defaults f v c q HQ).
  rewrite <- DP in K, XN.
  destruct (dense_good n f p tf w d p' m T r K TU' XN S) as [x [u [s1 [s2 [SV [_ [DN [LX [TR [_ [_ [_ [_ [_ [EI [ET EX]]]]]]]]]]]]]]]].
  destruct (used_sanitize f v c p tf w u H SV) as [EU [LT LU]].
  destruct (trace_time _ _ _ _ _ _ _ _ TR) as [_ LT']. specialize (LT' DN).
  assert (IN := trace_interpolates _ _ _ _ _ _ _ _ TOT DN TR).
  assert (OS : out_start d = Some (f_t0 u)) by (destruct d as [| g d]; [contradiction |]; cbn; f_equal; apply (trace_start _ _ _ _ _ _ _ _ _ TR)).
  assert (OE := trace_end _ _ _ _ _ _ _ _ TR DN).
  destruct (history_sensible f v c p m T r TU H) as [cp [A0 [A1 [A2 [A3 [A4 _]]]]]].
  destruct (history_sensible f v c q m T r TU HQ) as [cq [B0 [B1 [B2 [B3 [B4 _]]]]]].
  assert (SS : same_setup (sets (integ p)) (sets (integ q))) by (unfold same_setup; rewrite A0, B0; repeat split; congruence).
  assert (SQ : sanitize q tf w = Some u) by (unfold sanitize in *; rewrite DQ; rewrite DP in SV; exact SV).
  rewrite <- EU in START.
  rewrite (reset_same p q u SS) in EI. rewrite <- (starts_over_reset q tf u START) in EI.
  assert (NI : initialized (integ (solve_start q tf u)) = false) by (rewrite (starts_over_reset q tf u START); reflexivity).
  exists x. rewrite (solve_from n f q tf w u s1 s2 SQ NI EI ET). rewrite EX. eexists. split; [reflexivity |].
  intro i. destruct (evaluate_domain d i tf _ _ OS OE) as [Q _]. rewrite Q by lra. f_equal.
  apply (interpolates_ends _ _ _ _ _ _ _ _ IN LT').
Qed.
Print Assumptions dense_solve_agrees.

(** The dense output of a quadratic integrand is its integral, exactly, at every time. *)
Theorem dense_solve_quadratic : forall g v c p n tf w y0 d p' m T r G F,
  f_x0 v = [y0] -> (forall k t, exists y, g k t = Some y) ->
  max_step c = Some m -> 0 <= m -> (exists h0, req_initial c = Some h0 /\ 0 <= h0) -> target c = Some T -> 0 <= T -> req_min c = r -> 0 <= r ->
  history (to_ode (to_scalar g)) v c p -> v_x0 w = None ->
  dense_solve n (to_ode (to_scalar g)) p tf w = (Ret d, p') ->
  (forall t, f_t0 (used v w) <= t <= tf -> g (f_k (used v w)) t = Some (G t)) -> quadratic G -> primitive_on G F (f_t0 (used v w)) tf ->
  forall t, f_t0 (used v w) <= t <= tf -> evaluate d 0 t = Ret (Some (y0 + (F t - F (f_t0 (used v w))))).
Proof.
  intros g v c p n tf w y0 d p' m T r G F X0 TOT M M0 HI TT T0 RM R0 H WX S HG [a [b [c0 QG]]] P t B.
  assert (K : keeps_dimension (length (f_x0 v)) (to_ode (to_scalar g))) by (rewrite X0; apply scalar_keeps).
  assert (TOT' : forall k t x, exists y, to_ode (to_scalar g) k t x = Some y).
  { intros k t1 x. unfold to_ode, to_scalar. destruct (TOT k t1) as [y ->]. eexists. reflexivity. }
  destruct (dense_solve_interpolates _ v c p n tf w d p' m T r K TOT' ltac:(rewrite X0; discriminate) M M0 HI TT T0 RM R0 H S)
    as [LT [_ [_ [E [x [EV [_ [IN _]]]]]]]].
  assert (UX : f_x0 (used v w) = [y0]) by (cbn; rewrite WX; exact X0). rewrite UX in IN.
  destruct (interpolates_quadratic _ g _ _ _ _ _ _ IN G F a b c0 HG P QG) as [_ [_ [_ Q]]].
  rewrite (EV O t B). f_equal. apply (Q LT t B).
Qed.
Print Assumptions dense_solve_quadratic.

(** An empty interval is not accepted: DenseSolve to the initial time throws. *)
Theorem dense_solve_empty_throws : forall f v c w m h0 T r,
  max_step c = Some m -> req_initial c = Some h0 -> target c = Some T -> req_min c = r ->
  0 <= T -> 0 <= r <= h0 -> 0 < h0 <= m -> f_x0 v <> [] ->
  forall n p, history f v c p -> fst (dense_solve (S (S n)) f p (f_t0 (used v w)) w) = Exc.
Proof.
  intros f v c w m h0 T r M H0 TT RM T0 R0 HM XN n p H.
  assert (TU : tuned m T r c).
  { assert (M0 : 0 <= m) by lra. refine (conj (conj (conj M M0) _) (conj TT (conj T0 (conj _ (proj1 R0))))); [exists h0; split; [exact H0 | lra] | rewrite RM; apply Rle_refl]. }
  unfold dense_solve. destruct (sanitize p (f_t0 (used v w)) w) as [u |] eqn:SV; [| reflexivity].
  destruct (used_sanitize f v c p _ w u H SV) as [EU [_ LU]]. cbv zeta.
  destruct (history_sensible f v c p m T r TU H) as [cp [A0 [A1 [A2 [A3 [A4 A5]]]]]].
  assert (AC : exists r', acceptable m h0 T r' (sets (integ p))).
  { destruct A5 as [A5 | A5]; [exists r | exists 0]; unfold acceptable; rewrite A0, A1, A2, A3, A5; repeat split; auto; lra. }
  destruct AC as [r' AC].
  assert (AC' := restart_settings m h0 T r' p u AC).
  destruct (acceptable_initialize m h0 T 0 (integ (reset_cached p u)) AC' eq_refl) as [s1 [EI [FA _]]].
  destruct (initialize_well (integ (reset_cached p u)) s1 m T 0 (acceptable_tuned _ _ _ _ _ AC') eq_refl I EI) as [W [E1 [E2 [E3 [E4 _]]]]].
  cbn in E1, E2, E3, E4. rewrite EI. unfold start_dense. rewrite (w_init _ _ _ W). cbn [negb]. rewrite E2.
  assert (XU : f_x0 u <> []). { intro E. rewrite EU in E. rewrite E in LU. destruct (f_x0 v); [contradiction | discriminate]. }
  destruct (f_x0 u) as [| y0 ys] eqn:EX; [contradiction |]. rewrite E4.
  assert (W2 : well m (Rmin T (1 / 10)) (set_dense s1 (Some []))) by (destruct W; constructor; auto; exact I).
  set (s2 := set_dense s1 (Some [])) in *.
  assert (X2 : xc s2 = Some (y0 :: ys)) by exact E2. assert (T2 : time s2 = f_t0 (used v w)) by (cbn; rewrite E1, EU; reflexivity).
  rewrite <- T2. cbn [to_time]. rewrite (w_max _ _ _ W2). rewrite Rmin_left by lra.
  rewrite (no_further_boundary (S n) f s2 (time s2) m _ h0 _ W2 X2 ltac:(discriminate) FA) by lra.
  replace (time s2 - time s2) with 0 by ring. cbn [step_once].
  assert (AS : attempt_size s2 0 h0 = (true, 0)).
  { unfold attempt_size, cap. rewrite (w_max _ _ _ W2). rewrite ltb_t by lra. rewrite Rmin_left by lra. reflexivity. }
  rewrite AS. unfold step. destruct (do_step f s2 0) as [e c1] eqn:DS. destruct (do_step_frame f s2 0 e c1 DS) as [T1 _].
  change (dense s2) with (Some (@nil seg)). cbn [map last].
  assert (EP := eps_pos). rewrite ltb_t by (rewrite T1; lra). reflexivity.
Qed.
Print Assumptions dense_solve_empty_throws.
Example dense_solve_empty_throws_example : fst (dense_solve 2 ex_f (fresh_ivp ex_v ex_c) 0 no_values) = Exc.
Proof. apply (dense_solve_empty_throws ex_f ex_v ex_c no_values 1 1 (1 / 10) 0); auto; try (cbn; lra); [discriminate | apply hist_new]. Qed.

(** A concrete dense output: t² over [0, 1/2] in one segment. *)
Lemma eps_small : eps_time <= 1 / 2.
Proof.
  unfold eps_time. replace (1 / 2) with (/ 2 ^ 1) by (cbn; field). apply Rinv_le_contravar; [apply pow_lt; lra |]. apply Rle_pow; [lra | lia].
Qed.
Lemma fresh_dense_step : forall n f v c m h0 T tf w x1 ev, acceptable m h0 T 0 c -> f_x0 v <> [] -> used v w = v ->
  eps_time <= tf - f_t0 v <= m -> tf - f_t0 v < 1001 / 1000 * h0 ->
  rk3 f (f_k v) (f_t0 v) (tf - f_t0 v) (f_x0 v) = Some (x1, ev) -> state_norm ev <= Rmin T (1 / 10) ->
  exists p', dense_solve (S (S n)) f (fresh_ivp v c) tf w =
    (Ret [Seg (f_t0 v) tf (Some (f_x0 v)) (Some x1) (f (f_k v) (f_t0 v) (f_x0 v)) (f (f_k v) tf x1)], p').
Proof.
  intros n f v c m h0 T tf w x1 ev AC XN UV HB HH RK NE. assert (EP := eps_pos). unfold dense_solve.
  assert (SV : sanitize (fresh_ivp v c) tf w = Some v).
  { unfold sanitize. cbn [fresh_ivp defaults]. change (or_default (v_t0 w) (f_t0 v)) with (f_t0 (used v w)).
    change (or_default (v_x0 w) (f_x0 v)) with (f_x0 (used v w)). change (or_default (v_k w) (f_k v)) with (f_k (used v w)).
    rewrite UV. rewrite ltb_f by lra. rewrite ? Nat.eqb_refl. destruct v; reflexivity. }
  rewrite SV. cbv zeta.
  assert (AC' := restart_settings m h0 T 0 (fresh_ivp v c) v AC).
  destruct (acceptable_initialize m h0 T 0 (integ (reset_cached (fresh_ivp v c) v)) AC' eq_refl) as [s1 [EI [FA _]]].
  destruct (initialize_well _ s1 m T 0 (acceptable_tuned _ _ _ _ _ AC') eq_refl I EI) as [W [E1 [E2 [E3 [E4 _]]]]].
  cbn in E1, E2, E3, E4. rewrite EI. unfold start_dense. rewrite (w_init _ _ _ W). cbn [negb]. rewrite E2.
  destruct (f_x0 v) as [| y0 ys] eqn:EX; [contradiction |]. rewrite E4.
  assert (W2 : well m (Rmin T (1 / 10)) (set_dense s1 (Some []))) by (destruct W; constructor; auto; exact I).
  destruct (one_dense_step n f (set_dense s1 (Some [])) tf (y0 :: ys) x1 ev m _ h0 W2 eq_refl E2 ltac:(discriminate) FA) as [s' [TT [X' D']]].
  - cbn. rewrite E1. lra.
  - cbn. rewrite E1. lra.
  - cbn [set_dense param time]. rewrite E1, E3. exact RK.
  - exact NE.
  - rewrite TT, D'. cbn [set_dense time param]. rewrite E1, E3. eexists. reflexivity.
Qed.
Definition ex_g : integrand := fun _ t => Some (t ^ 2).
Example dense_solve_example : exists d p', dense_solve 2 (to_ode (to_scalar ex_g)) (fresh_ivp (Full 0 [0] []) ex_c) (1 / 2) no_values = (Ret d, p') /\
  evaluate d 0 (1 / 4) = Ret (Some (1 / 192)) /\ evaluate d 0 1 = Exc.
Proof.
  assert (RK : rk3 (to_ode (to_scalar ex_g)) [] 0 (1 / 2 - 0) [0] = Some ([1 / 24], [1 / 96])).
  { unfold rk3, to_ode, to_scalar, ex_g. cbn. f_equal. f_equal; f_equal; [field |].
    match goal with |- Rabs ?a = _ => replace a with (- (1 / 96)) by field end. rewrite Rabs_Ropp. apply Rabs_right. lra. }
  assert (ES := eps_small).
  destruct (fresh_dense_step O (to_ode (to_scalar ex_g)) (Full 0 [0] []) ex_c 1 1 (1 / 10) (1 / 2) no_values _ _ ex_acceptable ltac:(discriminate) eq_refl
    ltac:(cbn; lra) ltac:(cbn; lra) RK) as [p' S].
  { cbn. rewrite Rmin_left by lra. rewrite Rmax_left; lra. }
  eexists. exists p'. split; [exact S |]. cbn [f_t0 f_x0 f_k]. split.
  - unfold evaluate. cbn [out_end map last g_t0 g_t1]. rewrite (ltb_f (1 / 4) 0), (ltb_f (1 / 2) (1 / 4)) by lra. cbn [orb find_seg].
    unfold seg_value. cbn [g_x0 g_x1 g_d0 g_d1 g_t0 g_t1 to_ode to_scalar ex_g nth0 nth]. unfold hermite. f_equal. f_equal. field.
  - unfold evaluate. cbn [out_end map last g_t0 g_t1]. rewrite (ltb_f 1 0), (ltb_t (1 / 2) 1) by lra. reflexivity.
Qed.
Example dense_solve_agrees_example : exists q o d p', 
  solve 2 (to_ode (to_scalar ex_g)) (fresh_ivp (Full 0 [0] []) ex_c) (9 / 10) no_values = (Ret o, q) /\ 1 / 2 < time (integ q) /\
  dense_solve 2 (to_ode (to_scalar ex_g)) (fresh_ivp (Full 0 [0] []) ex_c) (1 / 2) no_values = (Ret d, p') /\
  exists x q', solve 2 (to_ode (to_scalar ex_g)) q (1 / 2) no_values = (Ret (Some x), q') /\ forall i, evaluate d i (1 / 2) = Ret (Some (nth i x 0)).
Proof.
  assert (RK : rk3 (to_ode (to_scalar ex_g)) [] 0 (9 / 10 - 0) [0] = Some ([243 / 1000], [243 / 4000])).
  { unfold rk3, to_ode, to_scalar, ex_g. cbn. f_equal. f_equal; f_equal; [field |].
    match goal with |- Rabs ?a = _ => replace a with (- (243 / 4000)) by field end. rewrite Rabs_Ropp. apply Rabs_right. lra. }
  destruct (fresh_one_step O (to_ode (to_scalar ex_g)) (Full 0 [0] []) ex_c 1 1 (1 / 10) 0 (9 / 10) _ _ ex_acceptable ltac:(discriminate) ltac:(cbn; lra) ltac:(cbn; lra) RK) as [q [S L]].
  { cbn. rewrite Rmin_left by lra. rewrite Rmax_left; lra. }
  destruct L as [_ [_ [_ [_ [_ [_ [T1 _]]]]]]]; [cbn; lra |].
  destruct dense_solve_example as [d [p' [D _]]].
  exists q, (Some [243 / 1000]), d, p'. split; [exact S |]. split; [rewrite T1; lra |]. split; [exact D |].
  apply (dense_solve_agrees (to_ode (to_scalar ex_g)) (Full 0 [0] []) ex_c (fresh_ivp (Full 0 [0] []) ex_c) q 2 (1 / 2) no_values d p' 1 (1 / 10) 0); auto; try lra.
  - apply scalar_keeps.
  - intros k t x. eexists. reflexivity.
  - discriminate.
  - exists 1. split; [reflexivity | lra].
  - apply hist_new.
  - apply (hist_solve (to_ode (to_scalar ex_g)) (Full 0 [0] []) ex_c 2 _ _ _ _ _ (hist_new _ _ _) S). discriminate.
Qed.
