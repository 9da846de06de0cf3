(** C87 and C88: the steps of the integrator and the values of InitialValueProblem::Solve. *)
From Coq Require Import Reals List Bool Lra Lia PeanoNat.
From Verif Require Import Integ_Model Integ_Spec Integ_Proofs Integ_Proofs2 Integ_Proofs3 Integ_Proofs4 Integ_Proofs5 Integ_Proofs6 Integ_Proofs7 Integ_Proofs8 Integ_Proofs9 Integ_Proofs10 Integ_Proofs11 Integ_Proofs12.
Import ListNotations.
Local Open Scope R_scope.

(** The values a call uses: those given, else the defaults. *)
Definition used (v : full) (w : values) : full :=
  Full (match v_t0 w with Some t => t | None => f_t0 v end)
       (match v_x0 w with Some x => x | None => f_x0 v end)
       (match v_k w with Some k => k | None => f_k v end).

(** A small problem used by the examples: dx/dt = 2, x(0) = 3, first and maximum step 1, accuracy 1/10. *)
Definition ex_f : ode := fun _ _ x => Some (map (fun _ => 2) x).
Definition ex_v : full := Full 0 [3] [].
Definition ex_c : settings := Settings (Some 1) 0 (Some 1) (Some (1 / 10)) (Some (1 / 10)) true.
Lemma ex_acceptable : acceptable 1 1 (1 / 10) 0 ex_c.
Proof. unfold acceptable. cbn. repeat split; lra. Qed.
Lemma ex_rk3 : forall k t h x, rk3 ex_f k t h [x] = Some ([x + 2 * h], [0]).
Proof.
  intros k t h x. unfold rk3, ex_f. cbn. f_equal. f_equal; f_equal; [field |]. 
  replace (x + h * 2 + -1 * (x + h / 6 * 2 + 4 * (h / 6) * 2 + h / 6 * 2)) with 0 by field. apply Rabs_R0.
Qed.
Lemma ex_dim : forall n, keeps_dimension n ex_f.
Proof. intros n k t x d L E. injection E as <-. rewrite map_length. exact L. Qed.
Lemma ex_norm : state_norm [0] <= Rmin (1 / 10) (1 / 10).
Proof. cbn. rewrite Rmin_left by lra. unfold Rmax. destruct (Rle_dec 0 0); lra. Qed.
Lemma ex_solve : forall n, exists p', solve (S (S n)) ex_f (fresh_ivp ex_v ex_c) (1 / 2) no_values = (Ret (Some [3 + 2 * (1 / 2 - 0)]), p').
Proof.
  intro n. destruct (fresh_one_step n ex_f ex_v ex_c 1 1 (1 / 10) 0 (1 / 2) _ _ ex_acceptable ltac:(discriminate) ltac:(cbn; lra) ltac:(cbn; lra)
    (ex_rk3 _ _ _ _) ex_norm) as [p' [S _]]. exists p'. exact S.
Qed.

(** * C87: steps *)

(** A returning Solve, on a problem whose calls so far have returned, has followed a path of Kutta's
    third order steps from the initial values to exactly tf: no step is longer than the maximum step,
    and each error estimate is within the accuracy (the target accuracy, at most 1/10) unless the step
    size is down at the smallest step. *)
Theorem solve_steps : forall f v c p n tf w o p' m T r,
  keeps_dimension (length (f_x0 v)) f -> f_x0 v <> [] ->
  max_step c = Some m -> 0 <= m -> (exists h0, req_initial c = Some h0 /\ 0 <= h0) -> target c = Some T -> 0 <= T -> req_min c = r -> 0 <= r ->
  calm f v c p -> solve n f p tf w = (Ret o, p') ->
  exists x, o = Some x /\ length x = length (f_x0 v) /\ f_t0 (used v w) <= tf /\
    path f (within m (Rmin T (1 / 10)) r) (f_k (used v w)) (f_t0 (used v w)) (f_x0 (used v w)) tf x.
Proof.
  intros f v c p n tf w o p' m T r K XN M M0 HI TT T0 RM R0 C S.
  assert (TU : tuned m T r c) by (refine (conj (conj (conj M M0) HI) (conj TT (conj T0 (conj _ R0)))); lra).
  destruct (calm_good f v c p m T r K TU XN C) as [G DP]. rewrite <- DP in K, XN.
  destruct (solve_good n f p tf w o p' m T r K G XN S) as [x [u [-> [SV [_ [_ [_ [LX [PA _]]]]]]]]].
  destruct (sanitize_facts p tf w u SV) as [EU [LT [LU _]]]. rewrite DP in EU. exists x. split; [reflexivity |].
  assert (UU : u = used v w) by exact EU. rewrite <- UU. rewrite DP in LU. repeat split; auto. congruence.
Qed.
Print Assumptions solve_steps.

Example solve_steps_example : exists n p',
  solve n ex_f (fresh_ivp ex_v ex_c) (1 / 2) no_values = (Ret (Some [3 + 2 * (1 / 2 - 0)]), p') /\
  path ex_f (within 1 (Rmin (1 / 10) (1 / 10)) 0) [] 0 [3] (1 / 2) [3 + 2 * (1 / 2 - 0)].
Proof.
  destruct (ex_solve O) as [p' S]. exists 2%nat, p'. split; [exact S |].
  destruct (solve_steps ex_f ex_v ex_c _ _ _ _ _ _ 1 (1 / 10) 0 (ex_dim _) ltac:(discriminate) eq_refl ltac:(lra) (ex_intro _ 1 (conj eq_refl Rle_0_1)) eq_refl ltac:(lra) eq_refl ltac:(lra)
    (calm_new _ _ _) S) as [x [E [_ [_ P]]]]. injection E as <-. exact P.
Qed.

(** The error estimate may be above the accuracy although the integrator is set to throw when it
    cannot meet it: a refused step may lead to exactly the minimum step, which is then taken whatever
    its error. *)
Definition jump : ode := fun _ t x => Some (map (fun _ => if Rle_dec t 0 then 0 else 6) x).
Lemma jump_rk3 : forall k h y, 0 < h -> rk3 jump k 0 h [y] = Some ([y + 5 * h], [h]).
Proof.
  intros k h y H. unfold rk3, jump. cbn.
  destruct (Rle_dec 0 0); [| lra]. destruct (Rle_dec (0 + h / 2) 0); [lra |]. destruct (Rle_dec (0 + h) 0); [lra |].
  f_equal. f_equal; f_equal; [field |].
  replace (y + h * 6 + -1 * (y + h / 6 * 0 + 4 * (h / 6) * 6 + h / 6 * 6)) with h by field. apply Rabs_right. lra.
Qed.
Theorem accuracy_met_or_throws_refuted : exists f v c s n r s' x h e,
  acceptable 1 1 (1 / 1000) (1 / 10) c /\ throws c = true /\
  initialize (integ (fresh_ivp v c)) = (Ret tt, s) /\
  no_further n f s None None (Some (f_t0 v + 1)) = (Ret r, s') /\ xc s' = Some x /\ time s' = f_t0 v + h /\
  kutta_step f (f_k v) (f_t0 v) h (f_x0 v) x e /\ 1 / 1000 < e.
Proof.
  pose (c := Settings (Some 1) (1 / 10) (Some 1) (Some (1 / 1000)) None true).
  assert (AC : acceptable 1 1 (1 / 1000) (1 / 10) c) by (unfold acceptable; cbn; repeat split; lra).
  destruct (fresh_start (Full 0 [0] []) c 1 1 (1 / 1000) (1 / 10) AC) as [s [EI [W [T1 [X1 [P1 [D1 [FA [RM TH]]]]]]]]].
  cbn in T1, X1, P1, TH. rewrite (Rmin_left (1 / 1000) (1 / 10)) in W by lra.
  assert (SO : exists s', step_once 2 jump s 1 1 false = (Ret (eqb (1 / 10) 1), s') /\ xc s' = Some [0 + 5 * (1 / 10)] /\ time s' = 1 / 10).
  { cbn [step_once].
    assert (A1 : attempt_size s 1 1 = (false, 1)).
    { unfold attempt_size, cap. rewrite (w_max _ _ _ W). rewrite (ltb_f 1 (95 / 100 * 1)) by lra. rewrite (ltb_t 1 (1001 / 1000 * 1)) by lra. rewrite Rmin_left by lra. reflexivity. }
    rewrite A1. rewrite (step_plain jump s 1 D1).
    assert (R1 : rk3 jump (param s) (time s) 1 [0] = Some ([0 + 5 * 1], [1])) by (rewrite T1; apply jump_rk3; lra).
    rewrite (do_step_some jump s 1 [0] _ _ X1 R1). cbn [fst snd]. set (s1 := set_context s (time s + 1) (Some [0 + 5 * 1])).
    assert (N1 : state_norm [1] = 1) by (cbn; rewrite Rmax_left; lra). rewrite N1.
    assert (ACC : forall q, sets q = sets s -> accuracy_in_use q = 1 / 1000) by (intros q Q; unfold accuracy_in_use; rewrite Q, (w_acc _ _ _ W); reflexivity).
    assert (WM : forall q, sets q = sets s -> 0 <= time q <= 1 -> working_min q = 1 / 10).
    { intros q Q TQ. unfold working_min. rewrite Q, RM. apply Rmax_right. unfold tol14. rewrite (Rabs_right (time q)) by lra.
      assert (0 < / 10 ^ 14 <= 1 / 10).
      { split; [apply Rinv_0_lt_compat; apply pow_lt; lra |]. replace (1 / 10) with (/ 10 ^ 1) by (cbn; field).
        apply Rinv_le_contravar; [apply pow_lt; lra |]. apply Rle_pow; [lra | lia]. }
      apply Rmax_lub; [lra |]. apply Rle_trans with (1 * / 10 ^ 14); [apply Rmult_le_compat_r; lra | lra]. }
    assert (CAP : forall q h, sets q = sets s -> h <= 1 -> cap q h = h).
    { intros q h Q H. unfold cap. rewrite Q, (w_max _ _ _ W). apply Rmin_left. exact H. }
    assert (CA : calc_adjusted s1 (Some 1) 1 false = (Some (false, 1 / 10), true)).
    { unfold calc_adjusted. rewrite (eqb_f 1 0) by lra. rewrite (ACC s1 eq_refl).
      assert (P0 := pow3_nonneg (1 / 1000 / 1)). assert (P := pow3_le (1 / 1000 / 1) (1 / 10) ltac:(lra) ltac:(lra) ltac:(cbn; lra)).
      set (q := pow3 (1 / 1000 / 1)) in *. cbv zeta. rewrite (ltb_f 1 (9 / 10 * 1 * q)) by lra. rewrite (ltb_t (9 / 10 * 1 * q) 1) by lra. cbn [andb].
      rewrite (leb_f 1 (1 / 1000)) by lra. rewrite (Rmin_left (9 / 10 * 1 * q) (9 / 10 * 1)) by lra.
      rewrite (Rmin_left (9 / 10 * 1 * q) (5 * 1)) by lra. rewrite (Rmax_right (9 / 10 * 1 * q) (1 / 10 * 1)) by lra.
      rewrite (CAP s1 _ eq_refl) by lra. unfold validate_smaller. rewrite (WM s1 eq_refl) by (cbn; rewrite T1; lra).
      rewrite (ltb_f (1 / 10 * 1) (1 / 10)) by lra. cbn [andb negb]. rewrite (Rmax_right (1 / 10 * 1) (1 / 10)) by lra.
      rewrite (leb_f 1 (1 / 10)) by lra. rewrite eqb_t by reflexivity. reflexivity. }
    rewrite CA.
    assert (RV : revert s s1 = s).
    { unfold revert, s1, set_dense, set_context. cbn. rewrite D1. rewrite <- D1. apply istate_eta. }
    rewrite RV.
    assert (A2 : attempt_size s 1 (1 / 10) = (false, 1 / 10)).
    { unfold attempt_size, cap. rewrite (w_max _ _ _ W). rewrite (ltb_f 1 (95 / 100 * (1 / 10))) by lra. rewrite (ltb_f 1 (1001 / 1000 * (1 / 10))) by lra. rewrite Rmin_left by lra. reflexivity. }
    rewrite A2. rewrite (step_plain jump s (1 / 10) D1).
    assert (R2 : rk3 jump (param s) (time s) (1 / 10) [0] = Some ([0 + 5 * (1 / 10)], [1 / 10])) by (rewrite T1; apply jump_rk3; lra).
    rewrite (do_step_some jump s (1 / 10) [0] _ _ X1 R2). cbn [fst snd]. set (s2 := set_context s (time s + 1 / 10) (Some [0 + 5 * (1 / 10)])).
    assert (N2 : state_norm [1 / 10] = 1 / 10) by (cbn; rewrite Rmax_left; lra). rewrite N2.
    assert (SH := adjusted_shrinks s2 (1 / 10) (1 / 10) true ltac:(lra) ltac:(rewrite (ACC s2 eq_refl); lra) ltac:(rewrite (ACC s2 eq_refl); lra)).
    cbn [s2 set_context sets] in SH. fold s2 in SH. rewrite SH by (intros m' M'; rewrite (w_max _ _ _ W) in M'; injection M' as <-; lra).
    eexists. split; [reflexivity |]. split; [reflexivity |]. cbn. rewrite T1. lra. }
  destruct SO as [s' [SO [XS TS]]].
  exists jump, (Full 0 [0] []), c, s, 2%nat, TimeHasAdvanced, s', [0 + 5 * (1 / 10)], (1 / 10), (state_norm [1 / 10]).
  split; [exact AC |]. split; [reflexivity |]. split; [exact EI |].
  cbn [f_t0 f_k f_x0]. split; [| split; [exact XS |]; split; [rewrite TS; lra |]; split].
  - rewrite (no_further_boundary 2 jump s (0 + 1) 1 (1 / 1000) 1 [0] W X1 ltac:(discriminate) FA) by (rewrite T1; lra).
    rewrite T1. replace (0 + 1 - 0) with 1 by ring. rewrite SO. rewrite eqb_f by lra. rewrite TS. rewrite leb_f by lra. reflexivity.
  - apply (rk3_kutta jump [] 0 (1 / 10) [0]); [| apply jump_rk3; lra]. intros k t x d L E. injection E as <-. rewrite map_length. exact L.
  - cbn. rewrite Rmax_left; lra.
Qed.
Print Assumptions accuracy_met_or_throws_refuted.

(** One call of IntegrateNoFurtherThanTime: an event in the past is refused; otherwise time does not go
    back, does not advance by more than the maximum step, and does not pass any event; the result names
    an event whose time has been reached, or says that time has advanced to before every event. *)
Theorem no_further_stops_at_events : forall n f s pub upd bnd r s' m acc,
  well m acc s -> xc s <> Some [] -> no_further n f s pub upd bnd = (Ret r, s') ->
  (exists h e, accepted f s s' h e /\ 0 <= h <= m /\ time s' = time s + h /\ within m acc (req_min (sets s)) (time s) h e) /\
  (forall e, pub = Some e \/ upd = Some e \/ bnd = Some e -> time s <= e /\ time s' <= e) /\
  match r with
  | ReachedPublishTime => pub = Some (time s')
  | ReachedUpdateTime => upd = Some (time s')
  | ReachedBoundaryTime => bnd = Some (time s')
  | TimeHasAdvanced => forall e, pub = Some e \/ upd = Some e \/ bnd = Some e -> time s' < e
  end.
Proof.
  intros n f s pub upd bnd r s' m acc W X H.
  assert (PAST : in_past s pub || in_past s upd || in_past s bnd = false).
  { unfold no_further in H. rewrite (w_init _ _ _ W) in H. cbn [negb] in H. destruct (in_past s pub || in_past s upd || in_past s bnd); [discriminate | reflexivity]. }
  destruct (step_target s pub upd bnd) as [r0 [t |]] eqn:ST.
  2: { unfold no_further in H. rewrite (w_init _ _ _ W), PAST, ST in H. cbn [negb] in H. destruct (xc s) as [[| y l] |]; discriminate. }
  destruct (step_target_events s pub upd bnd r0 t m (w_max _ _ _ W) (w_m0 _ _ _ W) X ST) as [E1 [E2 [E3 [E4 E5]]]].
  destruct (no_further_ret n f s pub upd bnd r0 t m acc r s' W X ST H) as [h [e [AC [HB [TS [WI CASES]]]]]].
  destruct (accepted_frame f s s' h e (w_al _ _ _ W) AC) as [_ [TT _]].
  split; [exists h, e; auto |]. split.
  - intros e0 E. split; [| specialize (E1 e0 E); lra].
    apply orb_false_iff in PAST. destruct PAST as [PAST P3]. apply orb_false_iff in PAST. destruct PAST as [P1 P2].
    destruct E as [E | [E | E]]; rewrite E in *; [cbn in P1; apply ltb_no in P1 | cbn in P2; apply ltb_no in P2 | cbn in P3; apply ltb_no in P3]; lra.
  - destruct CASES as [[-> TE] | [-> TL]].
    + rewrite <- TE in *. destruct r0; auto. intros e0 E. apply (proj2 (E5 eq_refl) e0 E).
    + intros e0 E. specialize (E1 e0 E). lra.
Qed.
Print Assumptions no_further_stops_at_events.
Theorem no_further_past_events : forall n f s pub upd bnd e, (pub = Some e \/ upd = Some e \/ bnd = Some e) -> e < time s ->
  no_further n f s pub upd bnd = (Exc, s).
Proof.
  intros n f s pub upd bnd e E L. unfold no_further. destruct (negb (initialized s)); [reflexivity |].
  assert (P : in_past s pub || in_past s upd || in_past s bnd = true).
  { destruct E as [-> | [-> | ->]]; cbn [in_past]; rewrite (ltb_t (e - time s) 0) by lra; rewrite ? orb_true_r; reflexivity. }
  rewrite P. reflexivity.
Qed.
Print Assumptions no_further_past_events.
Example no_further_past_events_example :
  no_further 9 ex_f (integ (fresh_ivp ex_v ex_c)) (Some 1) (Some (-1)) None = (Exc, integ (fresh_ivp ex_v ex_c)).
Proof. apply (no_further_past_events 9 ex_f _ (Some 1) (Some (-1)) None (-1)); [auto | cbn; lra]. Qed.

Example no_further_stops_at_events_example : exists s s', initialize (integ (fresh_ivp ex_v ex_c)) = (Ret tt, s) /\ well 1 (1 / 10) s /\
  no_further 1 ex_f s None None (Some (1 / 2)) = (Ret ReachedBoundaryTime, s') /\ time s' = 1 / 2.
Proof.
  destruct (fresh_start ex_v ex_c 1 1 (1 / 10) 0 ex_acceptable) as [s [EI [W [T1 [X1 [P1 [D1 [FA _]]]]]]]].
  rewrite Rmin_left in W by lra. cbn in T1, X1, P1.
  assert (RK := ex_rk3 (param s) (time s) (1 / 2 - time s) 3).
  assert (NF := no_further_boundary 1 ex_f s (1 / 2) 1 (1 / 10) 1 [3] W X1 ltac:(discriminate) FA ltac:(rewrite T1; lra)).
  cbn [step_once] in NF.
  assert (AS : attempt_size s (1 / 2 - time s) 1 = (true, 1 / 2 - time s)).
  { unfold attempt_size, cap. rewrite T1, (w_max _ _ _ W). rewrite (ltb_t (1 / 2 - 0) (95 / 100 * 1)) by lra. rewrite Rmin_left by lra. reflexivity. }
  rewrite AS, (step_plain ex_f s _ D1), (do_step_some ex_f s _ _ _ _ X1 RK) in NF. cbn [fst snd] in NF.
  set (s1 := set_context s (time s + (1 / 2 - time s)) (Some [3 + 2 * (1 / 2 - time s)])) in *.
  destruct (adjusted_accepts s1 (state_norm [0]) (1 / 2 - time s) false) as [next [at' [CA HN]]].
  - rewrite T1. lra.
  - intros m' M'. cbn in M'. rewrite (w_max _ _ _ W) in M'. injection M' as <-. rewrite T1. lra.
  - apply state_norm_nonneg.
  - unfold accuracy_in_use. cbn [s1 set_context sets]. rewrite (w_acc _ _ _ W). assert (Q := ex_norm). rewrite Rmin_left in Q by lra. exact Q.
  - rewrite CA in NF. rewrite eqb_t in NF by reflexivity. cbn [orb] in NF. exists s, (set_time s1 (1 / 2)). auto.
Qed.

(** * C88: values of Solve *)

(** Preconditions: a final time before the initial time, or a state or parameter vector of another
    dimension, is refused and the problem is as before. *)
Theorem solve_refuses : forall n f p tf w,
  tf < f_t0 (used (defaults p) w) \/ length (f_x0 (used (defaults p) w)) <> length (f_x0 (defaults p)) \/
  length (f_k (used (defaults p) w)) <> length (f_k (defaults p)) ->
  solve n f p tf w = (Exc, p) /\ dense_solve n f p tf w = (Exc, p).
Proof.
  intros n f p tf w H.
  assert (SV : sanitize p tf w = None).
  { unfold sanitize. change (or_default (v_t0 w) (f_t0 (defaults p))) with (f_t0 (used (defaults p) w)).
    change (or_default (v_x0 w) (f_x0 (defaults p))) with (f_x0 (used (defaults p) w)).
    change (or_default (v_k w) (f_k (defaults p))) with (f_k (used (defaults p) w)).
    destruct (ltb tf (f_t0 (used (defaults p) w))) eqn:L; [reflexivity |]. apply ltb_no in L.
    destruct (Nat.eqb (length (f_x0 (used (defaults p) w))) (length (f_x0 (defaults p)))) eqn:L1; [apply Nat.eqb_eq in L1 | reflexivity].
    destruct (Nat.eqb (length (f_k (used (defaults p) w))) (length (f_k (defaults p)))) eqn:L2; [apply Nat.eqb_eq in L2 | reflexivity].
    exfalso. destruct H as [H | [H | H]]; [lra | apply H; exact L1 | apply H; exact L2]. }
  unfold solve, dense_solve. rewrite SV. auto.
Qed.
Print Assumptions solve_refuses.
Example solve_refuses_example : solve 9 ex_f (fresh_ivp ex_v ex_c) (-1) no_values = (Exc, fresh_ivp ex_v ex_c).
Proof. apply solve_refuses. left. cbn. lra. Qed.

(** After any calls, returning or throwing, a returning Solve at the initial time gives the initial
    state. *)
Lemma rk3_zero : forall f k t x x1 e, rk3 f k t 0 x = Some (x1, e) -> x1 = x.
Proof.
  assert (Z : forall a d x, a = 0 -> axpy a d x = x).
  { intros a d x ->. revert x. induction d as [| d0 d IH]; intros [| x0 x]; cbn; auto. rewrite IH. f_equal. ring. }
  intros f k t x x1 e H. unfold rk3 in H. destruct (f k t x); [| discriminate].
  match type of H with match ?u with _ => _ end = _ => destruct u end; [| discriminate].
  match type of H with match ?u with _ => _ end = _ => destruct u end; [| discriminate].
  injection H as <- _. rewrite ? Z; auto; field.
Qed.
Theorem solve_at_initial_time : forall f v c p n w x p' m,
  f_x0 v <> [] -> max_step c = Some m -> 0 <= m -> (exists h0, req_initial c = Some h0 /\ 0 <= h0) ->
  history f v c p -> solve n f p (f_t0 (used v w)) w = (Ret (Some x), p') -> x = f_x0 (used v w).
Proof.
  intros f v c p n w x p' m XN M M0 HI H S. assert (XE := solve_nonempty n f v c p _ w x p' XN H S).
  destruct (solve_relation f m (fun u t y => f_t0 u <= t /\ (t = f_t0 u -> y = f_x0 u))) with (v := v) (c := c) (p := p) (n := n) (tf := f_t0 (used v w)) (w := w) (x := x) (p' := p')
    as [_ [_ [_ [_ Q]]]]; auto.
  - intros u. split; [lra | auto].
  - intros u t y h y1 e HB [T Q] RK. split; [lra |]. intro E. assert (h = 0) by lra. subst h.
    rewrite (rk3_zero _ _ _ _ _ _ RK). apply Q. lra.
  - split; auto.
Qed.
Print Assumptions solve_at_initial_time.
Example solve_at_initial_time_example : exists p', solve 2 ex_f (fresh_ivp ex_v ex_c) 0 no_values = (Ret (Some [3 + 2 * (0 - 0)]), p').
Proof.
  destruct (fresh_one_step O ex_f ex_v ex_c 1 1 (1 / 10) 0 0 _ _ ex_acceptable ltac:(discriminate) ltac:(cbn; lra) ltac:(cbn; lra)
    (ex_rk3 _ _ _ _) ex_norm) as [p' [S _]]. exists p'. exact S.
Qed.

(** Quadrature (AntiderivativeFunction): after any calls, returning or throwing, a returning Solve is
    exact for polynomial integrands up to degree three; for an integrand with Lipschitz constant L it is
    within L m / 2 (tf - t0) of the integral, m the maximum step; and it lies between the bounds of the
    integrand times the length. *)
Theorem solve_quadrature : forall g v c p n tf w y0 x p' m G,
  f_x0 v = [y0] -> max_step c = Some m -> 0 <= m -> (exists h0, req_initial c = Some h0 /\ 0 <= h0) ->
  history (to_ode (to_scalar g)) v c p -> v_x0 w = None ->
  solve n (to_ode (to_scalar g)) p tf w = (Ret (Some x), p') ->
  let a := f_t0 (used v w) in
  (forall t, a <= t <= tf -> g (f_k (used v w)) t = Some (G t)) ->
  a <= tf /\ exists y, x = [y] /\
    (forall F, primitive_on G F a tf -> cubic G -> y = y0 + (F tf - F a)) /\
    (forall F L, primitive_on G F a tf -> lipschitz_on L G a tf -> Rabs (y - (y0 + (F tf - F a))) <= L * m / 2 * (tf - a)) /\
    (forall lo hi, (forall t, a <= t <= tf -> lo <= G t <= hi) -> y0 + lo * (tf - a) <= y <= y0 + hi * (tf - a)).
Proof.
  intros g v c p n tf w y0 x p' m G X0 M M0 HI H WX S a HG.
  assert (XN : f_x0 v <> []) by (rewrite X0; discriminate). assert (XE := solve_nonempty n _ v c p _ w x p' XN H S).
  destruct (solve_relation (quad g) m (quadrature g m) (quadrature_start g m) (fun v t x h x1 e => quadrature_step g m v t x h x1 e) v c p n tf w x p')
    as [T [_ [_ Q]]]; auto; [split; auto |].
  change (f_t0 (Full (or_default (v_t0 w) (f_t0 v)) (or_default (v_x0 w) (f_x0 v)) (or_default (v_k w) (f_k v)))) with a in T.
  split; [exact T |]. destruct (Q y0) as [y [-> [_ Q']]]; [cbn; rewrite WX; exact X0 |].
  exists y. split; [reflexivity |]. destruct (Q' G HG) as [Q1 [Q2 Q3]]. cbn [f_t0] in Q1, Q2, Q3. fold (f_t0 (used v w)) in Q1, Q2, Q3.
  split; [exact Q1 |]. split.
  - intros F L P LI. replace (y - (y0 + (F tf - F a))) with (y - y0 - (F tf - F a)) by ring. apply Q2; auto.
  - intros lo hi B. destruct (Q3 lo hi B) as [B1 B2]. change (or_default (v_t0 w) (f_t0 v)) with a in B1, B2. lra.
Qed.
Print Assumptions solve_quadrature.

(** A linear combination of the state whose rate is constant along the ODE advances at that rate
    exactly, whatever calls were made before. *)
Theorem solve_linear_invariant : forall f v c p n tf w x p' m weights rate,
  keeps_dimension (length (f_x0 v)) f -> f_x0 v <> [] ->
  max_step c = Some m -> 0 <= m -> (exists h0, req_initial c = Some h0 /\ 0 <= h0) ->
  (forall k t y d, f k t y = Some d -> dot weights d = rate) ->
  history f v c p -> solve n f p tf w = (Ret (Some x), p') ->
  dot weights x = dot weights (f_x0 (used v w)) + rate * (tf - f_t0 (used v w)).
Proof.
  intros f v c p n tf w x p' m weights rate K XN M M0 HI HW H S. assert (XE := solve_nonempty n f v c p _ w x p' XN H S).
  pose (Rl := fun (u : full) t y => length (f_x0 u) = length (f_x0 v) -> linear weights rate u t y).
  destruct (solve_relation f m Rl) with (v := v) (c := c) (p := p) (n := n) (tf := tf) (w := w) (x := x) (p' := p') as [_ [LX [_ Q]]]; auto.
  - intros u _. split; [reflexivity | ring].
  - intros u t y h y1 e HB Q RK LU. apply (linear_step f weights rate u t y h y1 e); auto; [rewrite LU; exact K |].
    intros t1 x1 d1. apply HW.
  - split; auto.
  - destruct (Q LX) as [_ D]. exact D.
Qed.
Print Assumptions solve_linear_invariant.
Example solve_quadrature_example : exists p',
  let g := fun (_ : vec) (t : R) => Some (t ^ 2) in
  solve 2 (to_ode (to_scalar g)) (fresh_ivp (Full 0 [0] []) ex_c) (1 / 2) no_values = (Ret (Some [1 / 24]), p') /\
  derivable_pt_lim (fun t => t ^ 3 / 3) 0 0 /\ 1 / 24 = 0 + ((1 / 2) ^ 3 / 3 - 0 ^ 3 / 3).
Proof.
  pose (g := fun (_ : vec) (t : R) => Some (t ^ 2)).
  assert (RK : rk3 (to_ode (to_scalar g)) [] 0 (1 / 2 - 0) [0] = Some ([1 / 24], [1 / 96])).
  { unfold rk3, to_ode, to_scalar, g. cbn. f_equal. f_equal; f_equal; [field |].
    match goal with |- Rabs ?a = _ => replace a with (- (1 / 96)) by field end. rewrite Rabs_Ropp. apply Rabs_right. lra. }
  destruct (fresh_one_step O (to_ode (to_scalar g)) (Full 0 [0] []) ex_c 1 1 (1 / 10) 0 (1 / 2) _ _ ex_acceptable ltac:(discriminate) ltac:(cbn; lra) ltac:(cbn; lra) RK) as [p' [S _]].
  { cbn. rewrite Rmin_left by lra. rewrite Rmax_left; lra. }
  exists p'. split; [exact S |]. split; [| cbn; field].
  assert (D := poly_primitive 0 0 1 0 0).
  replace 0 with (0 + 0 * 0 + 1 * 0 ^ 2 + 0 * 0 ^ 3) at 2 by ring.
  apply (derivable_pt_lim_ext (fun t => 0 * t + 0 / 2 * t ^ 2 + 1 / 3 * t ^ 3 + 0 / 4 * t ^ 4)); [intro; field | exact D].
Qed.
Example solve_linear_invariant_example : exists p',
  solve 2 ex_f (fresh_ivp ex_v ex_c) (1 / 2) no_values = (Ret (Some [3 + 2 * (1 / 2 - 0)]), p') /\ dot [1] [3 + 2 * (1 / 2 - 0)] = dot [1] [3] + 2 * (1 / 2 - 0).
Proof. destruct (ex_solve O) as [p' S]. exists p'. split; [exact S | cbn; ring]. Qed.

(** Solve is not a function of its arguments: what it returns depends on the times solved for before. *)
Definition growth : ode := fun _ _ x => Some (map (fun y => y / 2) x).
Lemma growth_rk3 : forall k t h y, 0 <= h -> 0 <= y -> rk3 growth k t h [y] = Some ([y * (1 + h / 2 + h ^ 2 / 8 + h ^ 3 / 48)], [y * h ^ 3 / 48]).
Proof.
  intros k t h y H Y. unfold rk3, growth. cbn. f_equal. f_equal; f_equal; [field |].
  match goal with |- Rabs ?a = _ => replace a with (- (y * (h * h * h) / 48)) by field end.
  rewrite Rabs_Ropp. rewrite Rabs_right; [field |].
  apply Rle_ge. apply Rmult_le_pos; [| lra]. apply Rmult_le_pos; [exact Y |]. apply Rmult_le_pos; [| exact H]. apply Rmult_le_pos; exact H.
Qed.
Theorem solve_repeatable_refuted : exists f v c tf n p p' q q' x y o,
  p = fresh_ivp v c /\ solve n f p tf no_values = (Ret (Some x), p') /\
  solve n f p (tf / 2) no_values = (Ret o, q) /\ solve n f q tf no_values = (Ret (Some y), q') /\ x <> y.
Proof.
  pose (v := Full 0 [1] []).
  assert (N : forall a, 0 <= a -> state_norm [a] = a) by (intros a A; cbn; apply Rmax_left; exact A).
  destruct (fresh_one_step O growth v ex_c 1 1 (1 / 10) 0 1 _ _ ex_acceptable ltac:(discriminate) ltac:(cbn; lra) ltac:(cbn; lra)
    (growth_rk3 [] 0 (1 - 0) 1 ltac:(lra) ltac:(lra))) as [p' [S1 _]].
  { rewrite N by (cbn; lra). rewrite Rmin_left by lra. cbn. lra. }
  destruct (fresh_one_step O growth v ex_c 1 1 (1 / 10) 0 (1 / 2) _ _ ex_acceptable ltac:(discriminate) ltac:(cbn; lra) ltac:(cbn; lra)
    (growth_rk3 [] 0 (1 / 2 - 0) 1 ltac:(lra) ltac:(lra))) as [q [S2 LIM]].
  { rewrite N by (cbn; lra). rewrite Rmin_left by lra. cbn. lra. }
  destruct LIM as [C1 [D1 [I1 [W1 [DD [X1 [T1 [P1 FA]]]]]]]]; [cbn; lra |]. rewrite Rmin_left in W1 by lra.
  assert (H1 : 0 <= 1 - time (integ q)) by (rewrite T1; lra). set (y1 := 1 * _) in X1. assert (Y1 : 0 <= y1) by (unfold y1; cbn; lra).
  destruct (again_one_step O growth q 1 (1 / 10) 1 1 _ _ _ W1 ltac:(congruence) DD X1 ltac:(discriminate) ltac:(rewrite C1, T1; cbn; lra) FA
    ltac:(rewrite T1; lra) ltac:(rewrite T1; lra) (growth_rk3 (param (integ q)) (time (integ q)) (1 - time (integ q)) y1 H1 Y1)) as [q' S3].
  { rewrite T1. rewrite N; unfold y1; cbn; lra. }
  exists growth, v, ex_c, 1, 2%nat, (fresh_ivp v ex_c), p', q, q'. eexists. eexists. eexists.
  split; [reflexivity |]. split; [exact S1 |]. split; [replace (1 / 2) with (1 / 2) by reflexivity; exact S2 |]. split; [exact S3 |].
  rewrite T1. unfold y1. intro E. injection E as E. cbn in E. lra.
Qed.
Print Assumptions solve_repeatable_refuted.

(** A call that has to start over (other values, or an earlier time) does not depend on what happened
    before: only on the values used and on the settings that survive. *)
Theorem solve_restart : forall n f p q tf w r p', defaults p = defaults q -> same_setup (sets (integ p)) (sets (integ q)) ->
  (used (defaults p) w <> current p \/ tf < time (integ p)) -> (used (defaults p) w <> current q \/ tf < time (integ q)) ->
  solve n f p tf w = (r, p') -> r <> Exc -> exists q', solve n f q tf w = (r, q') /\ integ q' = integ p'.
Proof.
  intros n f p q tf w r p' DE SS RP RQ S NE.
  destruct (sanitize p tf w) as [u |] eqn:SV; [| unfold solve in S; rewrite SV in S; injection S as <- _; contradiction].
  assert (SQ : sanitize q tf w = Some u) by (unfold sanitize in *; rewrite <- DE; exact SV).
  destruct (sanitize_facts p tf w u SV) as [EU _]. change (u = used (defaults p) w) in EU.
  rewrite <- EU in RP, RQ.
  rewrite (solve_unfold n f p tf w u SV) in S. rewrite (solve_unfold n f q tf w u SQ). cbv zeta in *.
  rewrite (starts_over_reset p tf u RP) in S. rewrite (starts_over_reset q tf u RQ).
  rewrite <- (reset_same p q u SS).
  replace (initialized (integ (reset_cached p u))) with false in * by reflexivity.
  destruct (initialize (integ (reset_cached p u))) as [[[] | |] s1].
  - destruct (to_time n f s1 tf) as [[[] | |] s2]; injection S as <- <-; eexists; (split; [reflexivity | reflexivity]).
  - injection S as <- <-; eexists; (split; [reflexivity | reflexivity]).
  - injection S as <- <-; eexists; (split; [reflexivity | reflexivity]).
Qed.
Print Assumptions solve_restart.

Example solve_restart_example : exists q q', solve 2 ex_f (fresh_ivp ex_v ex_c) (1 / 2) no_values = (Ret (Some [3 + 2 * (1 / 2 - 0)]), q) /\
  solve 2 ex_f q 0 no_values = (Ret (Some [3 + 2 * (0 - 0)]), q').
Proof.
  destruct (fresh_one_step O ex_f ex_v ex_c 1 1 (1 / 10) 0 (1 / 2) _ _ ex_acceptable ltac:(discriminate) ltac:(cbn; lra) ltac:(cbn; lra)
    (ex_rk3 _ _ _ _) ex_norm) as [q [S L]]. exists q.
  destruct L as [C1 [D1 [I1 [W1 [DD [X1 [T1 [P1 FA]]]]]]]]; [cbn; lra |].
  destruct (fresh_one_step O ex_f ex_v ex_c 1 1 (1 / 10) 0 0 _ _ ex_acceptable ltac:(discriminate) ltac:(cbn; lra) ltac:(cbn; lra)
    (ex_rk3 _ _ _ _) ex_norm) as [r [S0 _]].
  assert (H1 : history ex_f ex_v ex_c q) by (apply (hist_solve ex_f ex_v ex_c 2 _ _ _ _ _ (hist_new _ _ _) S); discriminate).
  destruct (history_sensible ex_f ex_v ex_c q 1 (1 / 10) 0 (acceptable_tuned _ _ _ _ _ ex_acceptable) H1) as [c' [E1 [E2 [E3 [E4 [E5 _]]]]]].
  (* both restart: q because 0 < 1/2, and a problem at a later time with the same settings *)
  pose (p := set_integ (fresh_ivp ex_v ex_c) (set_context (integ (fresh_ivp ex_v ex_c)) 9 (Some [7]))).
  assert (SP : exists p', solve 2 ex_f p 0 no_values = (Ret (Some [3 + 2 * (0 - 0)]), p')).
  { assert (SV : sanitize p 0 no_values = Some ex_v) by (apply (sanitize_default p 0); cbn; lra).
    rewrite (solve_unfold 2 ex_f p 0 no_values ex_v SV). cbv zeta. rewrite (starts_over_reset p 0 ex_v) by (right; cbn; lra).
    assert (SV0 : sanitize (fresh_ivp ex_v ex_c) 0 no_values = Some ex_v) by (apply (sanitize_default (fresh_ivp ex_v ex_c) 0); cbn; lra).
    assert (ST : solve_start (fresh_ivp ex_v ex_c) 0 ex_v = fresh_ivp ex_v ex_c) by (apply (solve_start_same (fresh_ivp ex_v ex_c) 0); cbn; lra).
    rewrite (solve_unfold 2 ex_f _ 0 no_values ex_v SV0) in S0. cbv zeta in S0. rewrite ST in S0.
    change (integ (reset_cached p ex_v)) with (integ (fresh_ivp ex_v ex_c)).
    replace (initialized (integ (fresh_ivp ex_v ex_c))) with false in * by reflexivity.
    destruct (initialize (integ (fresh_ivp ex_v ex_c))) as [[[] | |] s1]; try discriminate.
    destruct (to_time 2 ex_f s1 0) as [[[] | |] s2]; try discriminate. injection S0 as S0 _. rewrite S0. eexists. reflexivity. }
  destruct SP as [p' SP].
  destruct (solve_restart 2 ex_f p q 0 no_values _ _ ltac:(rewrite D1; reflexivity)
    ltac:(unfold same_setup; rewrite E1, E2, E3, E4, E5; repeat split; reflexivity) ltac:(right; cbn; lra) ltac:(right; rewrite T1; lra) SP ltac:(discriminate)) as [q' [S' _]].
  exists q'. split; [exact S | exact S'].
Qed.

(** An exception leaves the integrator at the end of the refused step: the same call made again returns
    a value. *)
Definition late_jump : ode := fun _ t x => Some (map (fun _ => if Rlt_dec t (3 / 4) then 0 else 6) x).
Theorem solve_again_after_exception_refuted : exists f v c n p' p'' x,
  solve n f (fresh_ivp v c) 1 no_values = (Exc, p') /\ solve n f p' 1 no_values = (Ret (Some x), p'').
Proof.
  pose (v := Full 0 [0] []). pose (c := Settings (Some 1) 1 (Some 1) (Some (1 / 10)) None true).
  assert (AC : acceptable 1 1 (1 / 10) 1 c) by (unfold acceptable; cbn; repeat split; lra).
  destruct (fresh_start v c 1 1 (1 / 10) 1 AC) as [s1 [EI [W [T1 [X1 [P1 [D1 [FA [RM TH]]]]]]]]]. cbn in T1, X1, P1, TH. rewrite Rmin_left in W by lra.
  assert (RK : rk3 late_jump (param s1) (time s1) (1 - time s1) [0] = Some ([1], [1])).
  { rewrite T1. unfold rk3, late_jump. cbn. destruct (Rlt_dec 0 (3 / 4)); [| lra]. destruct (Rlt_dec (0 + (1 - 0) / 2) (3 / 4)); [| lra].
    destruct (Rlt_dec (0 + (1 - 0)) (3 / 4)); [lra |]. f_equal. f_equal; f_equal; [field |].
    match goal with |- Rabs ?a = _ => replace a with (- (1)) by field end. rewrite Rabs_Ropp. apply Rabs_R1. }
  assert (TT := one_refusal O late_jump s1 1 [0] [1] [1] 1 (1 / 10) 1 W D1 X1 ltac:(discriminate) FA ltac:(rewrite T1; lra) ltac:(rewrite T1; lra) RK).
  specialize (TT ltac:(cbn; rewrite Rmax_left; lra) TH). rewrite RM in TT.
  specialize (TT ltac:(rewrite T1; unfold smallest_step; apply Rlt_le_trans with 1; [lra | apply Rmax_r])).
  assert (S1 : solve 2 late_jump (fresh_ivp v c) 1 no_values = (Exc, set_integ (fresh_ivp v c) (set_context s1 1 (Some [1])))).
  { assert (SV : sanitize (fresh_ivp v c) 1 no_values = Some v) by (apply (sanitize_default (fresh_ivp v c) 1); cbn; lra).
    assert (ST : solve_start (fresh_ivp v c) 1 v = fresh_ivp v c) by (apply (solve_start_same (fresh_ivp v c) 1); cbn; lra).
    rewrite (solve_unfold 2 late_jump (fresh_ivp v c) 1 no_values v SV). cbv zeta. rewrite ST.
    replace (initialized (integ (fresh_ivp v c))) with false by reflexivity. rewrite EI. rewrite TT. reflexivity. }
  set (p' := set_integ (fresh_ivp v c) (set_context s1 1 (Some [1]))) in *.
  assert (W' : well 1 (1 / 10) (integ p')). { destruct W; constructor; auto. unfold aligned. cbn. rewrite D1. exact I. }
  destruct (again_one_step O late_jump p' 1 (1 / 10) 1 1 [1] [1] [0] W' eq_refl D1 eq_refl ltac:(discriminate) ltac:(cbn; lra) FA ltac:(cbn; lra) ltac:(cbn; lra)) as [p'' S2].
  - cbn [p' set_integ integ set_context time param]. unfold rk3, late_jump. cbn. destruct (Rlt_dec 1 (3 / 4)); [lra |].
    destruct (Rlt_dec (1 + (1 - 1) / 2) (3 / 4)); [lra |]. destruct (Rlt_dec (1 + (1 - 1)) (3 / 4)); [lra |].
    f_equal. f_equal; f_equal; [field |]. match goal with |- Rabs ?a = _ => replace a with 0 by field end. apply Rabs_R0.
  - cbn. rewrite Rmax_left; lra.
  - exists late_jump, v, c, 2%nat, p', p'', [1]. auto.
Qed.
Print Assumptions solve_again_after_exception_refuted.
