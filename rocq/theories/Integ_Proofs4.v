(** Relations between the initial values and the state of the context that every Runge-Kutta step
    keeps hold after any history of calls, whatever the outcome of the calls. *)
From Coq Require Import Reals List Bool Lra Lia PeanoNat.
From Verif Require Import Integ_Model Integ_Spec Integ_Proofs Integ_Proofs2 Integ_Proofs3.
Import ListNotations.
Local Open Scope R_scope.

Section CLOSED.
Variable f : ode.
Variable k : vec.
Variable m : R.
Variable Rl : R -> vec -> Prop.
Hypothesis Rl_step : forall t x h x1 e, 0 <= h <= m -> Rl t x -> rk3 f k t h x = Some (x1, e) -> Rl (t + h) x1.

Definition holds (s : istate) : Prop := forall x, xc s = Some x -> x <> [] -> Rl (time s) x.

Lemma step_context : forall s h r s1, step f s h = (r, s1) ->
  (exists e, do_step f s h = (e, set_dense s1 (dense s)) /\ (r = Ret e \/ r = Exc)) /\
  time s1 = time s + h /\ param s1 = param s /\ initialized s1 = initialized s /\ sets s1 = sets s /\ ideal s1 = ideal s.
Proof.
  intros s h r s1 H. unfold step in H. destruct (do_step f s h) as [e c1] eqn:D.
  destruct (do_step_frame f s h e c1 D) as [T [P [I [N [DD [S [X C1]]]]]]].
  assert (G : forall d r', (r' = Ret e \/ r' = Exc) -> (r', set_dense c1 d) = (r, s1) ->
    (exists e', (e, c1) = (e', set_dense s1 (dense s)) /\ (r = Ret e' \/ r = Exc)) /\
    time s1 = time s + h /\ param s1 = param s /\ initialized s1 = initialized s /\ sets s1 = sets s /\ ideal s1 = ideal s).
  { intros d r' R' E. injection E as <- <-. cbn [set_dense time param initialized sets ideal].
    refine (conj _ (conj T (conj P (conj N (conj S I))))). exists e. split; [| exact R']. f_equal.
    unfold set_dense. cbn [time xc param ideal initialized sets]. rewrite <- DD. symmetry. apply istate_eta. }
  destruct (dense s) as [d |] eqn:ED.
  - destruct (ltb (time c1 - time s) eps_time).
    { refine (G _ _ _ H). right. reflexivity. }
    match type of H with match ?u with Some _ => _ | None => _ end = _ => destruct u end.
    { refine (G _ _ _ H). left. reflexivity. }
    { refine (G _ _ _ H). right. reflexivity. }
  - refine (G (dense c1) _ _ _); [left; reflexivity |]. rewrite <- H. f_equal. apply istate_eta.
Qed.

Lemma step_holds : forall s h r s1, 0 <= h <= m -> param s = k -> holds s -> step f s h = (r, s1) -> holds s1.
Proof.
  intros s h r s1 H0 K HS H. destruct (step_context s h r s1 H) as [[e [D _]] [T _]].
  intros x1 X1 N1. rewrite T. unfold do_step in D. destruct (xc s) as [x |] eqn:X.
  - destruct (rk3 f (param s) (time s) h x) as [[x2 e2] |] eqn:RK.
    + apply (f_equal snd) in D. apply (f_equal xc) in D. cbn in D. rewrite X1 in D. injection D as <-.
      rewrite K in RK. apply (Rl_step (time s) x h x2 e2 H0); [| exact RK]. apply HS; [exact X |].
      intros ->. apply N1. unfold rk3 in RK. destruct (f k (time s) []); [| discriminate].
      match type of RK with match ?u with Some _ => _ | None => _ end = _ => destruct u end; [| discriminate].
      match type of RK with match ?u with Some _ => _ | None => _ end = _ => destruct u end; [| discriminate].
      injection RK as RK _. apply (f_equal (@length R)) in RK. rewrite ? axpy_length in RK. destruct x2; [reflexivity | discriminate].
    + apply (f_equal snd) in D. apply (f_equal xc) in D. cbn in D. congruence.
  - apply (f_equal snd) in D. apply (f_equal xc) in D. cbn in D. congruence.
Qed.

Lemma step_once_holds : forall n s hm a at0 r s', max_step (sets s) = Some m -> 0 <= m -> 0 <= hm -> 0 <= a ->
  param s = k -> holds s -> step_once n f s hm a at0 = (r, s') ->
  holds s' /\ param s' = k /\ sets s' = sets s /\ initialized s' = initialized s /\
  (ideal s' = ideal s \/ exists i, ideal s' = Some i /\ 0 <= i) /\
  (forall full, r = Ret full -> exists h, time s' = time s + h /\ 0 <= h <= hm /\ (full = true -> h = hm)).
Proof.
  induction n as [| n IH]; intros s hm a at0 r s' M M0 H0 A0 K HS H; cbn [step_once] in H.
  - injection H as <- <-. repeat split; auto. intros full F. discriminate.
  - destruct (attempt_size s hm a) as [lim h] eqn:EA.
    destruct (attempt_bounds s hm a lim h m M M0 H0 A0 EA) as [[HB0 HBm] [HBh _]].
    destruct (step f s h) as [r1 s1] eqn:ES.
    destruct (step_context s h r1 s1 ES) as [[e [D R1]] [T1 [P1 [I1 [S1 D1]]]]].
    assert (HS1 := step_holds s h r1 s1 (conj HB0 HBm) K HS ES).
    destruct r1 as [e1 | |].
    + destruct (calc_adjusted s1 e1 h at0) as [[[b next] |] at2] eqn:EC.
      * assert (NN : 0 <= next).
        { apply (adjusted_nonneg s1 e1 h at0 b next at2 HB0); [| exact EC]. intros m' M'. rewrite S1 in M'. congruence. }
        destruct b.
        -- injection H as <- <-.
           assert (G : forall full, @Ret bool (eqb h hm) = Ret full ->
                     exists h0, time s + h = time s + h0 /\ 0 <= h0 <= hm /\ (full = true -> h0 = hm)).
           { intros full F. injection F as <-. exists h. split; [reflexivity |]. split; [lra |]. apply eqb_iff. }
           destruct lim; cbn [set_ideal time param sets initialized ideal xc]; rewrite ? T1.
           ++ refine (conj HS1 (conj _ (conj S1 (conj I1 (conj (or_introl D1) G))))). congruence.
           ++ refine (conj _ (conj _ (conj S1 (conj I1 (conj (or_intror _) G))))); [exact HS1 | congruence |].
              exists next. auto.
        -- destruct (IH (revert s s1) hm next at2 r s') as [Q1 [Q2 [Q3 [Q4 [Q5 Q6]]]]]; auto.
           { cbn. rewrite S1. exact M. }
           { cbn. congruence. }
           repeat split; auto; cbn in *; try congruence.
      * injection H as <- <-. repeat split; auto; try congruence.
    + injection H as <- <-. repeat split; auto; try congruence.
    + injection H as <- <-. repeat split; auto; try congruence.
Qed.

Definition ready (s : istate) : Prop :=
  (max_step (sets s) = Some m /\ 0 <= m) /\ (forall a, first_attempt s = Some a -> 0 <= a) /\ param s = k /\ holds s.

Lemma first_ideal : forall s s', (ideal s' = ideal s \/ exists i, ideal s' = Some i /\ 0 <= i) -> sets s' = sets s ->
  (forall a, first_attempt s = Some a -> 0 <= a) -> forall a, first_attempt s' = Some a -> 0 <= a.
Proof.
  intros s s' I S F a A. unfold first_attempt in *. destruct I as [I | [i [I P]]]; rewrite I in A.
  - rewrite S in A. apply F. exact A.
  - injection A as <-. exact P.
Qed.

Lemma no_further_ready : forall n s pub upd bnd r s', ready s -> no_further n f s pub upd bnd = (r, s') ->
  ready s' /\ sets s' = sets s /\ (xc s = Some [] -> xc s' = Some []).
Proof.
  intros n s pub upd bnd r s' R H. assert (R' := R). destruct R' as [[M M0] [F [K HS]]].
  assert (SAME : forall r0 : result step_result, (r0, s) = (r, s') -> ready s' /\ sets s' = sets s /\ (xc s = Some [] -> xc s' = Some [])).
  { intros r0 E. injection E as _ <-. auto. }
  unfold no_further in H.
  destruct (negb (initialized s)); [apply (SAME _ H) |].
  destruct (in_past s pub || in_past s upd || in_past s bnd); [apply (SAME _ H) |].
  destruct (step_target s pub upd bnd) as [r1 [t |]]; [| apply (SAME _ H)].
  assert (XC : xc s = Some [] \/ forall A (a b : A), match xc s with Some [] => a | _ => b end = b).
  { destruct (xc s) as [[| y l] |]; [left; reflexivity | right; reflexivity | right; reflexivity]. }
  destruct XC as [XC | XC].
  - rewrite XC in H. injection H as _ <-. split; [| cbn; auto].
    unfold ready. cbn. repeat split; auto. intros x X N. cbn in X. rewrite XC in X. injection X as <-. contradiction.
  - rewrite XC in H. destruct (ltb (t - time s) 0) eqn:L; [apply (SAME _ H) |]. apply ltb_no in L.
    destruct (first_attempt s) as [a |] eqn:FA; [| apply (SAME _ H)].
    destruct (step_once n f s (t - time s) a false) as [r2 s1] eqn:SO.
    destruct (step_once_holds n s (t - time s) a false r2 s1 M M0 L (F a eq_refl) K HS SO) as [Q1 [Q2 [Q3 [Q4 [Q5 Q6]]]]].
    assert (R1 : ready s1).
    { split; [rewrite Q3; auto |]. split; [apply (first_ideal s s1 Q5 Q3); rewrite FA; exact F |]. split; [exact Q2 | exact Q1]. }
    assert (NE : xc s = Some [] -> False). { intro E. specialize (XC bool true false). rewrite E in XC. discriminate. }
    destruct r2 as [full | |].
    + destruct (Q6 full eq_refl) as [h [T1 [[B0 B1] B2]]].
      destruct (full || leb t (time s1)) eqn:FU.
      * assert (TT : time s1 = t).
        { apply orb_true_iff in FU. destruct FU as [FU | FU]; [rewrite (B2 FU) in T1; lra | apply leb_iff in FU; lra]. }
        injection H as _ <-. rewrite (set_time_id s1 t TT). split; [exact R1 |]. split; [exact Q3 |]. intro E. destruct (NE E).
      * injection H as _ <-. split; [exact R1 |]. split; [exact Q3 |]. intro E. destruct (NE E).
    + injection H as _ <-. split; [exact R1 |]. split; [exact Q3 |]. intro E. destruct (NE E).
    + injection H as _ <-. split; [exact R1 |]. split; [exact Q3 |]. intro E. destruct (NE E).
Qed.

Lemma no_further_time : forall n s pub upd bnd r t r' s', ready s -> step_target s pub upd bnd = (r, Some t) -> time s <= t ->
  no_further n f s pub upd bnd = (Ret r', s') -> time s <= time s' <= t.
Proof.
  intros n s pub upd bnd r t r' s' [[M M0] [F [K HS]]] T B H. unfold no_further in H.
  destruct (negb (initialized s)); [discriminate |].
  destruct (in_past s pub || in_past s upd || in_past s bnd); [discriminate |]. rewrite T in H.
  assert (XC : xc s = Some [] \/ forall A (a b : A), match xc s with Some [] => a | _ => b end = b).
  { destruct (xc s) as [[| y l] |]; [left; reflexivity | right; reflexivity | right; reflexivity]. }
  destruct XC as [XC | XC].
  - rewrite XC in H. injection H as _ <-. cbn. lra.
  - rewrite XC in H. destruct (ltb (t - time s) 0) eqn:L; [discriminate |]. apply ltb_no in L.
    destruct (first_attempt s) as [a |] eqn:FA; [| discriminate].
    destruct (step_once n f s (t - time s) a false) as [[full | |] s1] eqn:SO; [| discriminate | discriminate].
    destruct (step_once_holds n s (t - time s) a false _ s1 M M0 L (F a eq_refl) K HS SO) as [Q1 [Q2 [Q3 [Q4 [Q5 Q6]]]]].
    destruct (Q6 full eq_refl) as [h [T1 [[B0 B1] B2]]].
    destruct (full || leb t (time s1)); injection H as _ <-; cbn; lra.
Qed.

Lemma to_time_ready : forall n s tf r s', ready s -> to_time n f s tf = (r, s') -> ready s' /\ sets s' = sets s.
Proof.
  induction n as [| n IH]; intros s tf r s' R H; cbn [to_time] in H; [injection H as _ <-; auto |].
  destruct (no_further n f s None None (Some match max_step (sets s) with Some m => Rmin tf (time s + m) | None => tf end)) as [r1 s1] eqn:NF.
  destruct (no_further_ready n s None None _ r1 s1 R NF) as [R1 [S1 _]].
  destruct r1 as [r1 | |]; [| injection H as _ <-; auto | injection H as _ <-; auto].
  destruct (ltb (time s1) tf); [| injection H as _ <-; auto].
  destruct (IH s1 tf r s' R1 H) as [Q1 Q2]. split; [exact Q1 | congruence].
Qed.

Lemma to_time_exact : forall n s tf u s', ready s -> time s <= tf -> to_time n f s tf = (Ret u, s') -> time s' = tf.
Proof.
  induction n as [| n IH]; intros s tf r s' R T H; cbn [to_time] in H; [discriminate |].
  assert (R' := R). destruct R' as [[M M0] _]. rewrite M in H. set (b := Rmin tf (time s + m)) in *.
  destruct (no_further n f s None None (Some b)) as [[r1 | |] s1] eqn:NF; [| discriminate | discriminate].
  destruct (no_further_ready n s None None _ _ s1 R NF) as [R1 [S1 _]].
  assert (B2 : b <= time s + m) by apply Rmin_r. assert (B1 : b <= tf) by apply Rmin_l.
  assert (TB : time s <= time s1 <= b).
  { apply (no_further_time n s None None (Some b) ReachedBoundaryTime b r1 s1 R (boundary_target s b m M B2)); [| exact NF].
    apply Rmin_glb; lra. }
  destruct (ltb (time s1) tf) eqn:L.
  - apply ltb_iff in L. apply (IH s1 tf r s' R1 (Rlt_le _ _ L) H).
  - apply ltb_no in L. injection H as _ <-. lra.
Qed.
End CLOSED.

(** * Histories of calls *)

(** The settings as the user leaves them: a maximum step and an initial step, none negative. *)
Definition sensible (m : R) (c : settings) : Prop :=
  (max_step c = Some m /\ 0 <= m) /\ (exists h0, req_initial c = Some h0 /\ 0 <= h0).

(** A problem as constructed, its settings set by the user. *)
Definition fresh_ivp (v : full) (c : settings) : ivp :=
  Ivp v v (IState (f_t0 v) (Some (f_x0 v)) (f_k v) None false None c).

(** The states after any calls, returning or throwing. *)
Inductive history (f : ode) (v : full) (c : settings) : ivp -> Prop :=
| hist_new : history f v c (fresh_ivp v c)
| hist_solve : forall n p tf w r p', history f v c p -> solve n f p tf w = (r, p') -> r <> More -> history f v c p'
| hist_dense : forall n p tf w r p', history f v c p -> dense_solve n f p tf w = (r, p') -> r <> More -> history f v c p'.

Section HISTORY.
Variable f : ode.
Variable m : R.
Variable Rl : full -> R -> vec -> Prop.
Hypothesis Rl_start : forall v, Rl v (f_t0 v) (f_x0 v).
Hypothesis Rl_step : forall v t x h x1 e, 0 <= h <= m -> Rl v t x -> rk3 f (f_k v) t h x = Some (x1, e) -> Rl v (t + h) x1.

Definition related (p : ivp) : Prop :=
  sensible m (sets (integ p)) /\ ready (f_k (current p)) m (Rl (current p)) (integ p).

Lemma reset_related : forall p w, sensible m (sets (integ p)) -> related (reset_cached p w).
Proof.
  intros p w [[M M0] [h0 [H0 P0]]]. split.
  - split; [auto | exists h0; auto].
  - split; [auto |]. split; [| split; [reflexivity |]].
    + intros a A. unfold first_attempt in A. cbn in A. rewrite H0 in A. injection A as <-. exact P0.
    + intros x X _. cbn in *. injection X as <-. apply Rl_start.
Qed.

Lemma initialize_related : forall p r s, related p -> initialize (integ p) = (r, s) -> related (set_integ p s).
Proof.
  intros p r s [[SM SI] [RM [RF [RK RH]]]] H. unfold initialize, init_settings in H.
  assert (SAME : related (set_integ p (integ p))) by (exact (conj (conj SM SI) (conj RM (conj RF (conj RK RH))))).
  destruct SI as [h0 [H0 P0]].
  destruct (optlt _ _); [injection H as _ <-; exact SAME |].
  destruct (optlt _ _); [injection H as _ <-; exact SAME |].
  destruct (optlt _ _); [injection H as _ <-; exact SAME |].
  rewrite H0 in H. injection H as _ <-. cbn. split; [split; [exact SM | exists h0; auto] |].
  split; [exact RM |]. split; [| split; [exact RK | exact RH]].
  intros a A. apply RF. unfold first_attempt in *. cbn in A. rewrite H0. exact A.
Qed.

Lemma to_time_related : forall n p s tf r s', related (set_integ p s) -> to_time n f s tf = (r, s') -> related (set_integ p s').
Proof.
  intros n p s tf r s' [SS RR] H. cbn in *.
  destruct (to_time_ready f (f_k (current p)) m (Rl (current p)) (Rl_step (current p)) n s tf r s' RR H) as [R1 S1].
  split; cbn; [rewrite S1; exact SS | exact R1].
Qed.

Lemma solve_related : forall n p tf w r p', related p -> solve n f p tf w = (r, p') -> related p'.
Proof.
  intros n p tf w r p' R H. unfold solve in H. destruct (sanitize p tf w) as [v |]; [| injection H as _ <-; exact R].
  set (p1 := if negb (same_values v (current p)) || ltb tf (time (integ p)) then reset_cached p v else p) in *.
  assert (R1 : related p1). { unfold p1. destruct (_ || _); [apply reset_related; apply R | exact R]. }
  cbv zeta in H.
  assert (R2 : forall r0 s1, (if initialized (integ p1) then (Ret tt, integ p1) else initialize (integ p1)) = (r0, s1) -> related (set_integ p1 s1)).
  { intros r0 s1 E. destruct (initialized (integ p1)).
    - injection E as _ <-. split; apply R1.
    - apply (initialize_related p1 r0 s1 R1 E). }
  destruct (if initialized (integ p1) then (Ret tt, integ p1) else initialize (integ p1)) as [r0 s1].
  specialize (R2 r0 s1 eq_refl).
  destruct r0; [| injection H as _ <-; exact R2 | injection H as _ <-; exact R2].
  destruct (to_time n f s1 tf) as [r2 s2] eqn:TT.
  assert (R3 := to_time_related n p1 s1 tf r2 s2 R2 TT).
  destruct r2; injection H as _ <-; exact R3.
Qed.

Lemma set_dense_related : forall p s d, related (set_integ p s) -> related (set_integ p (set_dense s d)).
Proof. intros p s d [SS RR]. split; [exact SS | exact RR]. Qed.

Lemma dense_related : forall n p tf w r p', related p -> dense_solve n f p tf w = (r, p') -> related p'.
Proof.
  intros n p tf w r p' R H. unfold dense_solve in H. destruct (sanitize p tf w) as [v |]; [| injection H as _ <-; exact R].
  assert (R1 : related (reset_cached p v)) by (apply reset_related; apply R).
  cbv zeta in H. set (p1 := reset_cached p v) in *.
  destruct (initialize (integ p1)) as [r1 s1] eqn:EI. assert (R2 := initialize_related p1 r1 s1 R1 EI).
  destruct r1; [| injection H as _ <-; exact R2 | injection H as _ <-; exact R2].
  assert (R3 : forall r2 s2, start_dense s1 = (r2, s2) -> related (set_integ p1 s2)).
  { intros r2 s2 E. unfold start_dense in E.
    repeat match type of E with
    | (if ?c then _ else _) = _ => destruct c
    | match ?c with _ => _ end = _ => destruct c
    end; injection E as _ <-; try exact R2; apply set_dense_related; exact R2. }
  destruct (start_dense s1) as [r2 s2]. specialize (R3 r2 s2 eq_refl).
  destruct r2; [| injection H as _ <-; exact R3 | injection H as _ <-; exact R3].
  destruct (to_time n f s2 tf) as [r3 s3] eqn:TT.
  assert (R4 := to_time_related n p1 s2 tf r3 s3 R3 TT).
  destruct r3; [| injection H as _ <-; exact R4 | injection H as _ <-; exact R4].
  destruct (dense s3) as [[| g d] |]; injection H as _ <-; try exact R4; apply set_dense_related; exact R4.
Qed.

Lemma history_related : forall v c p, sensible m c -> history f v c p -> related p.
Proof.
  intros v c p S H. induction H.
  - destruct S as [[M M0] [h0 [H0 P0]]]. split; [split; [auto | exists h0; auto] |].
    split; [auto |]. split; [| split; [reflexivity |]].
    + intros a A. unfold first_attempt in A. cbn in A. rewrite H0 in A. injection A as <-. exact P0.
    + intros x X _. cbn in *. injection X as <-. apply Rl_start.
  - eapply solve_related; eassumption.
  - eapply dense_related; eassumption.
Qed.

Lemma solve_ret : forall n p tf w r p', related p -> solve n f p tf w = (Ret r, p') ->
  sanitize p tf w = Some (current p') /\ time (integ p') = tf /\ r = xc (integ p') /\ defaults p' = defaults p.
Proof.
  intros n p tf w r p' R H. unfold solve in H. destruct (sanitize p tf w) as [v |] eqn:SV; [| discriminate].
  set (p1 := if negb (same_values v (current p)) || ltb tf (time (integ p)) then reset_cached p v else p) in *.
  assert (R1 : related p1). { unfold p1. destruct (_ || _); [apply reset_related; apply R | exact R]. }
  assert (C1 : current p1 = v /\ defaults p1 = defaults p /\ time (integ p1) <= tf).
  { unfold p1. destruct (negb (same_values v (current p)) || ltb tf (time (integ p))) eqn:B.
    - cbn. repeat split; auto. unfold sanitize in SV. destruct (ltb tf _) eqn:L; [discriminate |]. apply ltb_no in L.
      repeat match type of SV with (if ?c then _ else _) = _ => destruct c; [discriminate |] end. injection SV as <-. cbn. exact L.
    - apply orb_false_iff in B. destruct B as [B L]. apply ltb_no in L. apply negb_false_iff in B.
      split; [| split; [reflexivity | exact L]]. unfold same_values in B. apply andb_true_iff in B. destruct B as [B1 B3].
      apply andb_true_iff in B1. destruct B1 as [B1 B2]. apply eqb_iff in B1.
      destruct (vec_dec (f_x0 v) (f_x0 (current p))) as [B2' |]; [| discriminate].
      destruct (vec_dec (f_k v) (f_k (current p))) as [B3' |]; [| discriminate].
      destruct v, (current p). cbn in *. congruence. }
  cbv zeta in H.
  destruct C1 as [C1 [D1 T1]].
  assert (R2 : forall r0 s1, (if initialized (integ p1) then (Ret tt, integ p1) else initialize (integ p1)) = (r0, s1) ->
    related (set_integ p1 s1) /\ time s1 <= tf).
  { intros r0 s1 E. destruct (initialized (integ p1)).
    - injection E as _ <-. split; [split; apply R1 | exact T1].
    - split; [apply (initialize_related p1 r0 s1 R1 E) |]. unfold initialize in E.
      destruct (init_settings (sets (integ p1))); injection E as _ <-; exact T1. }
  destruct (if initialized (integ p1) then (Ret tt, integ p1) else initialize (integ p1)) as [r0 s1].
  destruct (R2 r0 s1 eq_refl) as [R3 T3].
  destruct r0; [| discriminate | discriminate].
  destruct (to_time n f s1 tf) as [[u | |] s2] eqn:TT; [| discriminate | discriminate].
  injection H as <- <-. cbn [set_integ current integ defaults]. repeat split; [congruence | | exact D1].
  apply (to_time_exact f (f_k (current p1)) m (Rl (current p1)) (Rl_step (current p1)) n s1 tf u s2); [| exact T3 | exact TT].
  apply R3.
Qed.

Lemma history_defaults : forall v c p, history f v c p -> defaults p = v.
Proof.
  intros v c p H. induction H as [| n p tf w r p' HH IH S N | n p tf w r p' HH IH S N]; [reflexivity | |]; rewrite <- IH.
  - unfold solve in S. destruct (sanitize p tf w) as [v0 |]; [| injection S as _ <-; reflexivity].
    set (p1 := if negb (same_values v0 (current p)) || ltb tf (time (integ p)) then reset_cached p v0 else p) in *.
    assert (D : defaults p1 = defaults p) by (unfold p1; destruct (_ || _); reflexivity). rewrite <- D. cbv zeta in S.
    destruct (if initialized (integ p1) then (Ret tt, integ p1) else initialize (integ p1)) as [[a | |] s1].
    + destruct (to_time n f s1 tf) as [[u | |] s2]; injection S as _ <-; reflexivity.
    + injection S as _ <-; reflexivity.
    + injection S as _ <-; reflexivity.
  - unfold dense_solve in S. destruct (sanitize p tf w) as [v0 |]; [| injection S as _ <-; reflexivity]. cbv zeta in S.
    destruct (initialize _) as [[a | |] s1]; [| injection S as _ <-; reflexivity | injection S as _ <-; reflexivity].
    destruct (start_dense s1) as [[b | |] s2]; [| injection S as _ <-; reflexivity | injection S as _ <-; reflexivity].
    destruct (to_time n f s2 tf) as [[u | |] s3]; [| injection S as _ <-; reflexivity | injection S as _ <-; reflexivity].
    destruct (dense s3) as [[| g d] |]; injection S as _ <-; reflexivity.
Qed.

(** What a returning Solve satisfies after any history. *)
Lemma solve_relation : forall v c p n tf w x p', sensible m c -> history f v c p -> f_x0 v <> [] ->
  solve n f p tf w = (Ret (Some x), p') -> x <> [] ->
  let u := Full (or_default (v_t0 w) (f_t0 v)) (or_default (v_x0 w) (f_x0 v)) (or_default (v_k w) (f_k v)) in
  f_t0 u <= tf /\ length (f_x0 u) = length (f_x0 v) /\ length (f_k u) = length (f_k v) /\ Rl u tf x.
Proof.
  intros v c p n tf w x p' S H XV E X u. assert (R := history_related v c p S H). assert (D := history_defaults v c p H).
  destruct (solve_ret n p tf w (Some x) p' R E) as [SV [T [EX _]]].
  assert (R' := solve_related n p tf w _ p' R E).
  unfold sanitize in SV. rewrite D in SV. fold (f_t0 u) in SV.
  destruct (ltb tf (or_default (v_t0 w) (f_t0 v))) eqn:L; [discriminate |]. apply ltb_no in L.
  destruct (Nat.eqb (length (or_default (v_x0 w) (f_x0 v))) (length (f_x0 v))) eqn:L1; [| discriminate]. apply Nat.eqb_eq in L1.
  destruct (Nat.eqb (length (or_default (v_k w) (f_k v))) (length (f_k v))) eqn:L2; [| discriminate]. apply Nat.eqb_eq in L2.
  cbn [negb] in SV. injection SV as SV. split; [exact L |]. split; [exact L1 |]. split; [exact L2 |].
  destruct R' as [_ [_ [_ [_ HL]]]]. rewrite <- SV in HL. rewrite <- T. apply HL; [symmetry; exact EX | exact X].
Qed.
End HISTORY.
