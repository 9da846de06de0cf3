(** Calls that return, calls that hang, problems whose calls have all returned. *)
From Coq Require Import Reals List Bool Lra Lia PeanoNat ZArith.
From Verif Require Import Integ_Model Integ_Spec Integ_Proofs Integ_Proofs2 Integ_Proofs3 Integ_Proofs4 Integ_Proofs5 Integ_Proofs6 Integ_Proofs7 Integ_Proofs8.
Import ListNotations.
Local Open Scope R_scope.

Lemma power_beyond : forall b, exists N, b <= (11 / 10) ^ N.
Proof.
  intro b. destruct (Pow_x_infinity (11 / 10)) with (b := b) as [N HN].
  - rewrite Rabs_right; lra.
  - exists N. specialize (HN N (le_n N)). rewrite Rabs_right in HN; [lra |]. apply Rle_ge. apply pow_le. lra.
Qed.
Lemma multiple_beyond : forall b d, 0 < d -> exists M, b <= INR M * d.
Proof.
  intros b d D. destruct (Rle_lt_dec b 0) as [B | B]; [exists 0%nat; cbn; lra |].
  destruct (archimed (b / d)) as [UP _]. exists (Z.to_nat (up (b / d))). rewrite INR_IZR_INZ, Z2Nat.id.
  2: { apply le_IZR. assert (0 < b / d) by (apply Rdiv_lt_0_compat; assumption). lra. }
  rename UP into HM. apply Rmult_lt_compat_r with (r := d) in HM; [| exact D].
  unfold Rdiv in HM. rewrite Rmult_assoc, Rinv_l in HM by lra. lra.
Qed.

Lemma to_time_returns : forall f s tf k t0 hs m acc r d a, keeps_dimension d f -> 0 < hs -> 0 < m ->
  smooth f k t0 tf d hs acc -> (forall t, t0 <= t <= tf -> smallest_step r t <= hs / 10) ->
  running k t0 tf m acc r d s -> first_attempt s = Some a -> 0 < a <= m ->
  exists n0, forall n, (n0 <= n)%nat -> exists s', to_time n f s tf = (Ret tt, s') /\ xc s' <> None.
Proof.
  intros f s tf k t0 hs m acc r d a K HS M SM SMALL RN FA A.
  destruct (power_beyond (1001 / 1000 * Rmax m (hs / 10) / hs)) as [N HN].
  set (delta := Rmin a (Rmin m (hs / 10))).
  assert (D0 : 0 < delta) by (unfold delta; apply Rmin_glb_lt; [lra |]; apply Rmin_glb_lt; lra).
  destruct (multiple_beyond (tf - time s) delta D0) as [MM HM].
  exists (N + MM + 2)%nat. intros n HNn.
  apply (outer f k t0 tf hs m acc r d K HS M SM SMALL N delta MM n s a); auto.
  - intros b B. assert (1001 / 1000 * Rmax m (hs / 10) <= hs * (11 / 10) ^ N).
    { apply Rmult_le_compat_l with (r := hs) in HN; [| lra].
      replace (hs * (1001 / 1000 * Rmax m (hs / 10) / hs)) with (1001 / 1000 * Rmax m (hs / 10)) in HN by (field; lra). exact HN. }
    lra.
  - unfold delta. apply Rle_trans with (1 := Rmin_r _ _). apply Rmin_l.
  - unfold delta. apply Rle_trans with (1 := Rmin_r _ _). apply Rmin_r.
  - split; [apply Rmin_l |]. apply Rle_trans with (2 := Rmax_l _ _). lra.
Qed.

(** Settings that Initialize accepts. *)
Definition acceptable (m h0 T r : R) (c : settings) : Prop :=
  max_step c = Some m /\ req_initial c = Some h0 /\ target c = Some T /\ req_min c = r /\
  0 <= T /\ 0 <= r <= h0 /\ 0 < h0 <= m.
Lemma acceptable_tuned : forall m h0 T r c, acceptable m h0 T r c -> tuned m T r c.
Proof. intros m h0 T r c [A [B [C [D [E [F G]]]]]]. repeat split; try lra; auto. exists h0. split; [auto | lra]. Qed.
Lemma acceptable_initialize : forall m h0 T r s, acceptable m h0 T r (sets s) -> ideal s = None ->
  exists s1, initialize s = (Ret tt, s1) /\ first_attempt s1 = Some h0 /\ req_min (sets s1) = r.
Proof.
  intros m h0 T r s [A [B [C [D [E [F G]]]]]] I. unfold initialize, init_settings. rewrite A, B, C, D.
  cbn [optlt]. rewrite (ltb_f m r) by lra. rewrite (ltb_f m h0) by lra. rewrite (ltb_f h0 r) by lra.
  eexists. split; [reflexivity |]. unfold first_attempt. cbn. rewrite I. auto.
Qed.

(** A call that starts from the initial values. *)
Lemma start_returns : forall f s tf m h0 T r hs x, keeps_dimension (length x) f -> acceptable m h0 T r (sets s) -> 0 < hs ->
  ideal s = None -> dense s = None -> time s <= tf -> xc s = Some x ->
  smooth f (param s) (time s) tf (length x) hs (Rmin T (1 / 10)) ->
  (forall t, time s <= t <= tf -> smallest_step r t <= hs / 10) ->
  exists s1, initialize s = (Ret tt, s1) /\
  exists n0, forall n, (n0 <= n)%nat -> exists s2, to_time n f s1 tf = (Ret tt, s2) /\ xc s2 <> None.
Proof.
  intros f s tf m h0 T r hs x K AC HS I D TF X SM SMALL.
  destruct (acceptable_initialize m h0 T r s AC I) as [s1 [EI [FA RM]]]. exists s1. split; [exact EI |].
  assert (AL : aligned s) by (unfold aligned; rewrite D; exact Logic.I).
  destruct (initialize_well s s1 m T r (acceptable_tuned m h0 T r _ AC) I AL EI) as [W [E1 [E2 [E3 [E4 _]]]]].
  destruct AC as [A1 [A2 [A3 [A4 [A5 [A6 A7]]]]]].
  apply (to_time_returns f s1 tf (param s) (time s) hs m (Rmin T (1 / 10)) r (length x) h0); auto; try lra.
  refine (conj W (conj _ (conj E3 (conj RM (conj _ _))))); [congruence | lra |]. exists x. split; [congruence | reflexivity].
Qed.

Lemma restart_settings : forall m h0 T r p u, acceptable m h0 T r (sets (integ p)) -> acceptable m h0 T 0 (sets (integ (reset_cached p u))).
Proof. intros m h0 T r p u [A [B [C [D [E [F G]]]]]]. repeat split; cbn; auto; lra. Qed.

(** Solve on a new problem, and on any problem that has to start over. *)
Definition starts_over (p : ivp) (tf : R) (u : full) : Prop := u <> current p \/ tf < time (integ p).
Lemma starts_over_reset : forall p tf u, starts_over p tf u -> solve_start p tf u = reset_cached p u.
Proof.
  intros p tf u S. unfold solve_start. destruct (same_values u (current p)) eqn:E.
  - apply same_values_iff in E. destruct S as [S | S]; [contradiction |]. rewrite ltb_t by exact S. reflexivity.
  - reflexivity.
Qed.

Lemma solve_from : forall n f p tf w u s1 s2, sanitize p tf w = Some u -> initialized (integ (solve_start p tf u)) = false ->
  initialize (integ (solve_start p tf u)) = (Ret tt, s1) -> to_time n f s1 tf = (Ret tt, s2) ->
  solve n f p tf w = (Ret (xc s2), set_integ (solve_start p tf u) s2).
Proof. intros n f p tf w u s1 s2 SV I EI TT. rewrite (solve_unfold n f p tf w u SV). cbv zeta. rewrite I, EI, TT. reflexivity. Qed.

Lemma solve_from_start : forall f p tf w u m h0 T r hs, keeps_dimension (length (f_x0 u)) f -> sanitize p tf w = Some u ->
  acceptable m h0 T r (sets (integ p)) -> 0 < hs ->
  (p = fresh_ivp (current p) (sets (integ p)) /\ defaults p = current p \/ starts_over p tf u /\ True) ->
  smooth f (f_k u) (f_t0 u) tf (length (f_x0 u)) hs (Rmin T (1 / 10)) ->
  (forall t, f_t0 u <= t <= tf -> smallest_step r t <= hs / 10) ->
  exists n0, forall n, (n0 <= n)%nat -> exists x p', solve n f p tf w = (Ret (Some x), p').
Proof.
  intros f p tf w u m h0 T r hs K SV AC HS CASE SM SMALL.
  destruct (sanitize_facts p tf w u SV) as [_ [LT _]].
  assert (GO : forall r', acceptable m h0 T r' (sets (integ (solve_start p tf u))) -> r' <= r ->
     initialized (integ (solve_start p tf u)) = false -> ideal (integ (solve_start p tf u)) = None -> dense (integ (solve_start p tf u)) = None ->
     time (integ (solve_start p tf u)) = f_t0 u -> xc (integ (solve_start p tf u)) = Some (f_x0 u) -> param (integ (solve_start p tf u)) = f_k u ->
     exists n0, forall n, (n0 <= n)%nat -> exists x p', solve n f p tf w = (Ret (Some x), p')).
  { intros r' AC' RR I1 I2 I3 I4 I5 I6.
    destruct (start_returns f (integ (solve_start p tf u)) tf m h0 T r' hs (f_x0 u) K AC' HS I2 I3 ltac:(lra) I5) as [s1 [EI [n0 RET]]].
    - rewrite I4, I6. exact SM.
    - rewrite I4. intros t TT. apply Rle_trans with (2 := SMALL t TT). unfold smallest_step. apply Rle_max_compat_l. exact RR.
    - exists n0. intros n NN. destruct (RET n NN) as [s2 [TT XX]].
      rewrite (solve_from n f p tf w u s1 s2 SV I1 EI TT). destruct (xc s2) as [x |]; [| contradiction]. eexists. eexists. reflexivity. }
  assert (SOV : starts_over p tf u -> exists n0, forall n, (n0 <= n)%nat -> exists x p', solve n f p tf w = (Ret (Some x), p')).
  { intro S. rewrite (starts_over_reset p tf u S) in GO. apply (GO 0); try reflexivity.
    - apply (restart_settings m h0 T r). exact AC.
    - apply AC. }
  destruct CASE as [[E ED] | [S _]]; [| exact (SOV S)].
  destruct (same_values u (current p)) eqn:SA.
  - apply same_values_iff in SA. destruct (Rlt_le_dec tf (time (integ p))) as [L | L]; [apply SOV; right; exact L |].
    assert (ST : solve_start p tf u = p).
    { unfold solve_start. rewrite ltb_f by exact L. replace (same_values u (current p)) with true; [reflexivity |].
      symmetry. apply same_values_iff. exact SA. }
    rewrite ST in GO. subst u. apply (GO r); auto; try lra; rewrite E; reflexivity.
  - apply SOV. left. intro C. rewrite <- same_values_iff in C. congruence.
Qed.

(** Integrands with a Lipschitz bound are smooth. *)
Lemma scalar_keeps : forall g, keeps_dimension 1 (to_ode g).
Proof. intros g k t x d _ H. unfold to_ode in H. destruct (g k t (nth0 0 x)); [| discriminate]. injection H as <-. reflexivity. Qed.
Lemma quad_kutta : forall g k t h y g0 ga gb, g k t = Some g0 -> g k (t + h / 2) = Some ga -> g k (t + h) = Some gb ->
  kutta_step (quad g) k t h [y] [y + h / 6 * (g0 + 4 * ga + gb)] (Rabs (h / 6 * (2 * ga - g0 - gb))).
Proof.
  intros g k t h y g0 ga gb E0 Ea Eb.
  assert (Q : forall t z d, g k t = Some d -> quad g k t z = Some [d]) by (intros u z dd E; unfold quad, to_ode, to_scalar; rewrite E; reflexivity).
  exists [g0], [ga], [gb], [y + h / 2 * g0], [y - h * g0 + 2 * h * ga], [y + h * ga].
  assert (N : forall a i, nth i [a] 0 = match i with O => a | _ => 0 end) by (intros a [| [| i]]; reflexivity).
  split; [apply Q; exact E0 |].
  split; [split; [reflexivity |]; intros [| [| i]]; cbn; ring |].
  split; [apply Q; exact Ea |].
  split; [split; [reflexivity |]; intros [| [| i]]; cbn; ring |].
  split; [apply Q; exact Eb |].
  split; [split; [reflexivity |]; intros [| [| i]]; cbn; field |].
  split; [split; [reflexivity |]; intros [| [| i]]; cbn; ring |].
  assert (E : y + h * ga - (y + h / 6 * (g0 + 4 * ga + gb)) = h / 6 * (2 * ga - g0 - gb)) by field.
  split.
  - intros i. rewrite ? N. destruct i; [rewrite E; apply Rle_refl |]. rewrite Rminus_diag_eq by reflexivity. rewrite Rabs_R0. apply Rabs_pos.
  - exists 0%nat. rewrite ? N. rewrite E. reflexivity.
Qed.

Lemma quad_smooth : forall g k t0 tf G L hs acc, (forall t, t0 <= t <= tf -> g k t = Some (G t)) ->
  lipschitz_on L G t0 tf -> 0 <= L -> L * hs * hs <= 6 * acc -> smooth (quad g) k t0 tf 1 hs acc.
Proof.
  intros g k t0 tf G L hs acc HG LI L0 HA t h x T H TF LX. destruct x as [| y [| z x]]; try discriminate.
  exists [y + h / 6 * (G t + 4 * G (t + h / 2) + G (t + h))], (Rabs (h / 6 * (2 * G (t + h / 2) - G t - G (t + h)))).
  split; [apply quad_kutta; apply HG; lra |].
  assert (A0 := LI (t + h / 2) t ltac:(lra) ltac:(lra)). assert (A1 := LI (t + h / 2) (t + h) ltac:(lra) ltac:(lra)).
  rewrite (Rabs_right (t + h / 2 - t)) in A0 by lra. rewrite (Rabs_left1 (t + h / 2 - (t + h))) in A1 by lra.
  replace (h / 6 * (2 * G (t + h / 2) - G t - G (t + h))) with (h / 6 * ((G (t + h / 2) - G t) + (G (t + h / 2) - G (t + h)))) by ring.
  rewrite Rabs_mult, (Rabs_right (h / 6)) by lra.
  assert (B := Rabs_triang (G (t + h / 2) - G t) (G (t + h / 2) - G (t + h))).
  assert (C : Rabs (G (t + h / 2) - G t + (G (t + h / 2) - G (t + h))) <= L * h) by lra.
  apply Rle_trans with (h / 6 * (L * h)); [apply Rmult_le_compat_l; lra |].
  assert (h * h <= hs * hs) by nra. assert (L * (h * h) <= L * (hs * hs)) by (apply Rmult_le_compat_l; lra). lra.
Qed.
