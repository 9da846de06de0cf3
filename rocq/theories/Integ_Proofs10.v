(** Single steps, hangs, problems whose calls have all returned, and exact dense outputs. *)
From Coq Require Import Reals List Bool Lra Lia PeanoNat.
From Verif Require Import Integ_Model Integ_Spec Integ_Proofs Integ_Proofs2 Integ_Proofs3 Integ_Proofs4 Integ_Proofs5 Integ_Proofs6 Integ_Proofs7 Integ_Proofs8 Integ_Proofs9.
Import ListNotations.
Local Open Scope R_scope.

(** * Paths *)
Lemma path_time : forall f good k t x t' x', path f good k t x t' x' -> t <= t'.
Proof. intros. induction H; lra. Qed.
Lemma kutta_zero : forall f k t x x1 e, kutta_step f k t 0 x x1 e -> x1 = x.
Proof.
  intros f k t x x1 e [d0 [da [db [xa [xb [mid [_ [_ [_ [_ [_ [[L C] _]]]]]]]]]]]].
  apply nth_ext0; [exact L |]. intro i. rewrite C. cbn. field.
Qed.
Lemma path_zero : forall f good k t x t' x', path f good k t x t' x' -> t' = t -> x' = x.
Proof.
  intros f good k t x t' x' P. induction P as [t x | t x h x1 e t' x' K H G P IH]; intro E; [reflexivity |].
  assert (T := path_time _ _ _ _ _ _ _ P). assert (h = 0) by lra. subst h.
  rewrite IH by lra. apply (kutta_zero f k t x x1 e K).
Qed.

(** * One step to the end *)
Lemma no_further_boundary : forall n f s b m acc a x, well m acc s -> xc s = Some x -> x <> [] -> first_attempt s = Some a ->
  time s <= b <= time s + m ->
  no_further n f s None None (Some b) =
    match step_once n f s (b - time s) a false with
    | (Ret full, s1) => if full || leb b (time s1) then (Ret ReachedBoundaryTime, set_time s1 b) else (Ret TimeHasAdvanced, s1)
    | (Exc, s1) => (Exc, s1)
    | (More, s1) => (More, s1)
    end.
Proof.
  intros n f s b m acc a x W X XN FA B. unfold no_further. rewrite (w_init _ _ _ W). cbn [negb].
  cbn [in_past orb]. rewrite (ltb_f (b - time s) 0) by lra.
  rewrite (boundary_target s b m (w_max _ _ _ W)) by lra. rewrite X. destruct x as [| y l]; [contradiction |].
  rewrite (ltb_f (b - time s) 0) by lra. rewrite FA. reflexivity.
Qed.
Lemma one_step : forall n f s tf x x1 ev m acc a, well m acc s -> dense s = None -> xc s = Some x -> x <> [] ->
  first_attempt s = Some a -> 0 <= tf - time s <= m -> tf - time s < 1001 / 1000 * a ->
  rk3 f (param s) (time s) (tf - time s) x = Some (x1, ev) -> state_norm ev <= acc ->
  exists s', to_time (S (S n)) f s tf = (Ret tt, s') /\ xc s' = Some x1 /\ time s' = tf /\
    (tf - time s < 95 / 100 * a -> s' = set_context s tf (Some x1)).
Proof.
  intros n f s tf x x1 ev m acc a W D X XN FA [H0 HM] HA RK EA.
  cbn [to_time]. rewrite (w_max _ _ _ W). rewrite Rmin_left by lra. rewrite (no_further_boundary (S n) f s tf m acc a x W X XN FA) by lra.
  cbn [step_once].
  assert (AS : attempt_size s (tf - time s) a = (ltb (tf - time s) (95 / 100 * a), tf - time s)).
  { unfold attempt_size. f_equal. unfold cap. rewrite (w_max _ _ _ W). rewrite (ltb_t (tf - time s) (1001 / 1000 * a)) by lra.
    destruct (ltb (tf - time s) (95 / 100 * a)); apply Rmin_left; lra. }
  rewrite AS. rewrite (step_plain f s (tf - time s) D). rewrite (do_step_some f s (tf - time s) x x1 ev X RK). cbn [fst snd].
  set (s1 := set_context s (time s + (tf - time s)) (Some x1)).
  assert (ACC : accuracy_in_use s1 = acc) by (unfold accuracy_in_use; cbn; rewrite (w_acc _ _ _ W); reflexivity).
  destruct (adjusted_accepts s1 (state_norm ev) (tf - time s) false) as [next [at' [CA HN]]];
    [lra | | apply state_norm_nonneg | rewrite ACC; exact EA |].
  { intros m' M'. cbn in M'. rewrite (w_max _ _ _ W) in M'. injection M' as <-. lra. }
  rewrite CA. rewrite eqb_t by reflexivity. cbn [orb].
  assert (TM : forall b : bool, time (set_time (if b then s1 else set_ideal s1 next) tf) = tf) by (intros []; reflexivity).
  rewrite TM. rewrite (ltb_f tf tf) by lra.
  eexists. split; [reflexivity |]. split; [destruct (ltb (tf - time s) (95 / 100 * a)); reflexivity |]. split; [apply TM |].
  intro LM. rewrite (ltb_t (tf - time s) (95 / 100 * a)) by exact LM. reflexivity.
Qed.

(** One step that is refused because a smaller one would be below the minimum. *)
Lemma one_refusal : forall n f s tf x x1 ev m acc a, well m acc s -> dense s = None -> xc s = Some x -> x <> [] ->
  first_attempt s = Some a -> 0 < tf - time s <= m -> tf - time s < 1001 / 1000 * a ->
  rk3 f (param s) (time s) (tf - time s) x = Some (x1, ev) -> acc < state_norm ev ->
  throws (sets s) = true -> 9 / 10 * (tf - time s) < smallest_step (req_min (sets s)) tf ->
  to_time (S (S n)) f s tf = (Exc, set_context s tf (Some x1)).
Proof.
  intros n f s tf x x1 ev m acc a W D X XN FA [H0 HM] HA RK EA TH WM.
  cbn [to_time]. rewrite (w_max _ _ _ W). rewrite Rmin_left by lra. rewrite (no_further_boundary (S n) f s tf m acc a x W X XN FA) by lra.
  cbn [step_once].
  assert (AS : attempt_size s (tf - time s) a = (ltb (tf - time s) (95 / 100 * a), tf - time s)).
  { unfold attempt_size. f_equal. unfold cap. rewrite (w_max _ _ _ W). rewrite (ltb_t (tf - time s) (1001 / 1000 * a)) by lra.
    destruct (ltb (tf - time s) (95 / 100 * a)); apply Rmin_left; lra. }
  rewrite AS. rewrite (step_plain f s (tf - time s) D). rewrite (do_step_some f s (tf - time s) x x1 ev X RK). cbn [fst snd].
  replace (time s + (tf - time s)) with tf by ring.
  set (s1 := set_context s tf (Some x1)).
  assert (ACC : accuracy_in_use s1 = acc) by (unfold accuracy_in_use; cbn; rewrite (w_acc _ _ _ W); reflexivity).
  assert (SH := adjusted_shrinks s1 (state_norm ev) (tf - time s) false H0 ltac:(rewrite ACC; apply (w_acc0 _ _ _ W)) ltac:(rewrite ACC; exact EA)).
  destruct SH as [nx [NB CA]].
  { intros m' M'. cbn in M'. rewrite (w_max _ _ _ W) in M'. injection M' as <-. lra. }
  rewrite (ltb_t nx (working_min s1)) in CA by (rewrite working_min_smallest; cbn [s1 set_context time sets]; lra).
  cbn [s1 set_context sets andb] in CA. rewrite TH in CA. fold s1 in CA. unfold s1 in *. rewrite CA. reflexivity.
Qed.

(** * Hangs *)

Lemma step_once_nan : forall n f s hm a at0 x, dense s = None -> xc s = Some x -> f (param s) (time s) x = None ->
  fst (step_once n f s hm a at0) = More.
Proof.
  induction n as [| n IH]; intros f s hm a at0 x D X F; cbn [step_once]; [reflexivity |].
  destruct (attempt_size s hm a) as [lim h]. rewrite (step_plain f s h D).
  assert (DS : do_step f s h = (None, set_context s (time s + h) None)).
  { unfold do_step, rk3. rewrite X, F. reflexivity. }
  rewrite DS. cbn [fst snd calc_adjusted].
  assert (RV : revert s (set_context s (time s + h) None) = s).
  { unfold revert, set_dense, set_context. cbn. rewrite D. rewrite <- D at 1. apply istate_eta. }
  rewrite RV. apply (IH f s hm (1 / 10 * h) at0 x); auto.
Qed.

Lemma to_time_nan : forall n f s tf m acc x a, well m acc s -> dense s = None -> xc s = Some x -> x <> [] -> time s <= tf ->
  first_attempt s = Some a -> f (param s) (time s) x = None -> fst (to_time n f s tf) = More.
Proof.
  intros [| n] f s tf m acc x a W D X XN T FA F; [reflexivity |]. cbn [to_time]. rewrite (w_max _ _ _ W).
  set (b := Rmin tf (time s + m)). assert (B2 : b <= time s + m) by apply Rmin_r.
  assert (B3 : time s <= b) by (apply Rmin_glb; [exact T | assert (Q := w_m0 _ _ _ W); lra]).
  rewrite (no_further_boundary n f s b m acc a x W X XN FA) by lra.
  assert (M := step_once_nan n f s (b - time s) a false x D X F).
  destruct (step_once n f s (b - time s) a false) as [[u | |] s1]; try discriminate. reflexivity.
Qed.

Lemma step_once_zero : forall n f s hm a at0 acc, well 0 acc s -> dense s = None -> 0 <= hm -> 0 <= a ->
  fst (step_once n f s hm a at0) <> Exc.
Proof.
  induction n as [| n IH]; intros f s hm a at0 acc W D H A; cbn [step_once]; [discriminate |].
  destruct (attempt_size s hm a) as [lim h] eqn:AS.
  destruct (attempt_bounds s hm a lim h 0 (w_max _ _ _ W) (Rle_refl 0) H A AS) as [[H0 H1] _]. assert (h = 0) by lra. subst h.
  rewrite (step_plain f s 0 D). set (s1 := snd (do_step f s 0)). set (e := fst (do_step f s 0)).
  assert (DS : do_step f s 0 = (e, s1)) by apply surjective_pairing.
  destruct (do_step_frame f s 0 e s1 DS) as [T1 [P1 [I1 [N1 [D1 [S1 [X1 EQ1]]]]]]].
  assert (RV : revert s s1 = s).
  { unfold revert. rewrite D1, D. rewrite EQ1. unfold set_dense, set_context. cbn. rewrite <- D. apply istate_eta. }
  destruct (calc_adjusted s1 e 0 at0) as [[[[] next] |] at'] eqn:CA.
  - destruct lim; discriminate.
  - rewrite RV. apply (IH f s hm next at' acc W D H).
    apply (adjusted_nonneg s1 e 0 at0 false next at'); [lra | | exact CA].
    intros m' M'. rewrite S1, (w_max _ _ _ W) in M'. injection M' as <-. lra.
  - exfalso. unfold calc_adjusted in CA. destruct e as [e |]; [| discriminate]. cbv zeta in CA.
    match type of CA with (if ?c then _ else _) = _ => destruct c; [discriminate |] end.
    assert (V : forall n3, 1 / 10 * 0 <= n3 -> validate_smaller s1 0 (cap s1 n3) = true).
    { intros n3 N3. unfold validate_smaller, cap. rewrite S1, (w_max _ _ _ W). rewrite Rmin_right by lra.
      rewrite (ltb_f 0 0) by lra. rewrite andb_false_r. reflexivity. }
    rewrite V in CA by apply Rmax_r. discriminate.
Qed.

Lemma to_time_zero : forall n f s tf acc d x, keeps_dimension d f -> well 0 acc s -> dense s = None -> xc s = Some x -> length x = d -> x <> [] ->
  time s < tf -> (exists a, first_attempt s = Some a) -> fst (to_time n f s tf) = More.
Proof.
  induction n as [| n IH]; intros f s tf acc d x K W D X LX XN T [a FA]; [reflexivity |].
  cbn [to_time]. rewrite (w_max _ _ _ W). rewrite Rmin_right by lra. replace (time s + 0) with (time s) by ring.
  assert (XE : xc s <> Some []) by (rewrite X; intro Q; injection Q; auto).
  destruct (no_further n f s None None (Some (time s))) as [r s1] eqn:NF. destruct r as [r | |].
  - destruct (no_further_ret n f s None None (Some (time s)) ReachedBoundaryTime (time s) 0 acc r s1 W XE) as [h [e [AC [H [T1 _]]]]]; [| exact NF |].
    { apply (boundary_target s (time s) 0 (w_max _ _ _ W)). lra. }
    destruct (accepted_frame f s s1 h e (w_al _ _ _ W) AC) as [AL [TT [PP [NN [SS [_ II]]]]]]. assert (h = 0) by lra. subst h.
    destruct (accepted_kutta f s s1 0 e x ltac:(rewrite LX; exact K) (w_al _ _ _ W) X AC) as [x1 [X1 [KS L1]]].
    rewrite (kutta_zero _ _ _ _ _ _ KS) in X1.
    rewrite ltb_t by lra. apply (IH f s1 tf acc d x); auto.
    + apply (accepted_well f s s1 0 e 0 acc W AC).
    + destruct AC as [s2 [nx [lim [ES [E2 _]]]]]. destruct (step_frame f s 0 (Some e) s2 (w_al _ _ _ W) ES) as [c1 [_ [E1 _]]].
      rewrite D in E1. subst s2 s1. destruct lim; reflexivity.
    + lra.
    + unfold first_attempt in *. rewrite SS. destruct II as [II | [nx [II _]]]; rewrite II; [exists a; exact FA | exists nx; reflexivity].
  - exfalso. rewrite (no_further_boundary n f s (time s) 0 acc a x W X XN FA) in NF by lra.
    assert (Q := step_once_zero n f s (time s - time s) a false acc W D ltac:(lra) (w_first _ _ _ W a FA)).
    destruct (step_once n f s (time s - time s) a false) as [[u | |] s2]; [destruct (_ || _); discriminate | | discriminate].
    apply Q. reflexivity.
  - reflexivity.
Qed.

(** * Problems whose calls have all returned *)
Inductive calm (f : ode) (v : full) (c : settings) : ivp -> Prop :=
| calm_new : calm f v c (fresh_ivp v c)
| calm_solve : forall n p tf w o p', calm f v c p -> solve n f p tf w = (Ret o, p') -> calm f v c p'
| calm_dense : forall n p tf w d p', calm f v c p -> dense_solve n f p tf w = (Ret d, p') -> calm f v c p'.

Lemma calm_history : forall f v c p, calm f v c p -> history f v c p.
Proof.
  intros f v c p H. induction H; [apply hist_new | |].
  - apply (hist_solve f v c n p tf w (Ret o)); auto. discriminate.
  - apply (hist_dense f v c n p tf w (Ret d)); auto. discriminate.
Qed.

Lemma calm_good : forall f v c p m T r, keeps_dimension (length (f_x0 v)) f -> tuned m T r c -> f_x0 v <> [] -> calm f v c p ->
  good_state f m T r p /\ defaults p = v.
Proof.
  intros f v c p m T r K TU XN H. induction H as [| n p tf w o p' HC [G DP] S | n p tf w d p' HC [G DP] S].
  - split; [| reflexivity]. refine (conj TU (conj eq_refl (conj eq_refl (conj XN _)))). left. repeat split.
  - rewrite <- DP in K, XN. destruct (solve_good n f p tf w o p' m T r K G XN S) as [x [u [_ [_ [_ [_ [_ [_ [_ [G' [D' _]]]]]]]]]]].
    split; [exact G' | congruence].
  - rewrite <- DP in K, XN. destruct (dense_good n f p tf w d p' m T r K (proj1 G) XN S) as [x [u [s1 [s2 [_ [_ [_ [_ [_ [G' [D' _]]]]]]]]]]].
    split; [exact G' | congruence].
Qed.

(** Dense solves do not depend on what happened before, only on the settings. *)
Lemma history_sensible : forall f v c p m T r, tuned m T r c -> history f v c p ->
  exists c', sets (integ p) = c' /\ max_step c' = max_step c /\ req_initial c' = req_initial c /\ target c' = target c /\ throws c' = throws c /\
    (req_min c' = req_min c \/ req_min c' = 0).
Proof.
  intros f v c p m T r TU H. exists (sets (integ p)). split; [reflexivity |].
  destruct TU as [[_ [h0 [H0 _]]] _].
  assert (INI : forall s r0 s1, req_initial (sets s) = Some h0 -> initialize s = (r0, s1) ->
    max_step (sets s1) = max_step (sets s) /\ req_initial (sets s1) = req_initial (sets s) /\ target (sets s1) = target (sets s) /\
    throws (sets s1) = throws (sets s) /\ req_min (sets s1) = req_min (sets s)).
  { intros s r0 s1 HI E. unfold initialize, init_settings in E. rewrite HI in E.
    repeat match type of E with context [if ?b then _ else _] => destruct b end; injection E as _ <-; cbn; auto. }
  assert (TTS : forall n s tf r0 s1, to_time n f s tf = (r0, s1) -> sets s1 = sets s).
  { assert (SO : forall n s hm a at0 r0 s1, step_once n f s hm a at0 = (r0, s1) -> sets s1 = sets s).
    { assert (ST : forall s h r0 s1, step f s h = (r0, s1) -> sets s1 = sets s).
      { intros s h r0 s1 E. unfold step in E. destruct (do_step f s h) as [e c1] eqn:DS.
        destruct (do_step_frame f s h e c1 DS) as [_ [_ [_ [_ [_ [S1 _]]]]]].
        destruct (dense s) as [dd |]; [| injection E as _ <-; exact S1].
        cbv zeta in E. match type of E with (if ?b then _ else _) = _ => destruct b end; [injection E as _ <-; exact S1 |].
        match type of E with match ?b with _ => _ end = _ => destruct b end; injection E as _ <-; exact S1. }
      induction n as [| n IH]; intros s hm a at0 r0 s1 E; cbn [step_once] in E; [injection E as _ <-; reflexivity |].
      destruct (attempt_size s hm a) as [lim h]. destruct (step f s h) as [r1 s2] eqn:EST. apply ST in EST.
      destruct r1 as [e | |]; [| injection E as _ <-; exact EST | injection E as _ <-; exact EST].
      destruct (calc_adjusted s2 e h at0) as [[[[] nx] |] at'].
      - injection E as _ <-. destruct lim; exact EST.
      - apply IH in E. rewrite E. exact EST.
      - injection E as _ <-. exact EST. }
    assert (NF : forall n s a b c0 r0 s1, no_further n f s a b c0 = (r0, s1) -> sets s1 = sets s).
    { intros n s a b c0 r0 s1 E. unfold no_further in E. destruct (negb (initialized s)); [injection E as _ <-; reflexivity |].
      destruct (_ || _ || _); [injection E as _ <-; reflexivity |].
      destruct (step_target s a b c0) as [rr [t |]]; [| injection E as _ <-; reflexivity].
      assert (G : (if ltb (t - time s) 0 then (Exc, s) else match first_attempt s with None => (Exc, s) | Some a0 =>
          match step_once n f s (t - time s) a0 false with (Ret full, s2) => if full || leb t (time s2) then (Ret rr, set_time s2 t) else (Ret TimeHasAdvanced, s2)
          | (Exc, s2) => (Exc, s2) | (More, s2) => (More, s2) end end) = (r0, s1) -> sets s1 = sets s).
      { intro E'. destruct (ltb (t - time s) 0); [injection E' as _ <-; reflexivity |].
        destruct (first_attempt s) as [a0 |]; [| injection E' as _ <-; reflexivity].
        destruct (step_once n f s (t - time s) a0 false) as [r2 s2] eqn:SE. apply SO in SE.
        destruct r2 as [u | |]; [| injection E' as _ <-; exact SE | injection E' as _ <-; exact SE].
        destruct (_ || _); injection E' as _ <-; exact SE. }
      destruct (xc s) as [[| y l] |]; [injection E as _ <-; reflexivity | apply G; exact E | apply G; exact E]. }
    induction n as [| n IH]; intros s tf r0 s1 E; cbn [to_time] in E; [injection E as _ <-; reflexivity |]. cbv zeta in E.
    match type of E with context [no_further n f s None None ?b] => destruct (no_further n f s None None b) as [r1 s2] eqn:EN end.
    apply NF in EN. destruct r1 as [u | |]; [| injection E as _ <-; exact EN | injection E as _ <-; exact EN].
    destruct (ltb (time s2) tf); [apply IH in E; congruence | injection E as _ <-; exact EN]. }
  induction H as [| n p tf w o p' HC IH S N | n p tf w o p' HC IH S N]; [auto 6 | |].
  - destruct IH as [I1 [I2 [I3 [I4 I5]]]].
    unfold solve in S. destruct (sanitize p tf w) as [u |]; [| injection S as _ <-; auto 6]. cbv zeta in S.
    set (p1 := if negb (same_values u (current p)) || ltb tf (time (integ p)) then reset_cached p u else p) in *.
    assert (J : max_step (sets (integ p1)) = max_step c /\ req_initial (sets (integ p1)) = req_initial c /\ target (sets (integ p1)) = target c /\
      throws (sets (integ p1)) = throws c /\ (req_min (sets (integ p1)) = req_min c \/ req_min (sets (integ p1)) = 0)).
    { unfold p1. destruct (_ || _); [cbn; auto 6 | auto 6]. }
    clearbody p1. destruct J as [J1 [J2 [J3 [J4 J5]]]].
    assert (Q : forall r0 s1, (if initialized (integ p1) then (Ret tt, integ p1) else initialize (integ p1)) = (r0, s1) ->
      max_step (sets s1) = max_step c /\ req_initial (sets s1) = req_initial c /\ target (sets s1) = target c /\ throws (sets s1) = throws c /\
      (req_min (sets s1) = req_min c \/ req_min (sets s1) = 0)).
    { intros r0 s1 E. destruct (initialized (integ p1)); [injection E as _ <-; auto 6 |].
      destruct (INI (integ p1) r0 s1 ltac:(congruence) E) as [A1 [A2 [A3 [A4 A5]]]].
      rewrite A1, A2, A3, A4, A5. auto 6. }
    destruct (if initialized (integ p1) then (Ret tt, integ p1) else initialize (integ p1)) as [r0 s1]. specialize (Q r0 s1 eq_refl).
    destruct r0 as [[] | |]; [| injection S as _ <-; exact Q | injection S as _ <-; exact Q].
    destruct (to_time n f s1 tf) as [r2 s2] eqn:TT. apply TTS in TT.
    destruct r2 as [[] | |]; injection S as _ <-; cbn; rewrite TT; exact Q.
  - destruct IH as [I1 [I2 [I3 [I4 I5]]]].
    unfold dense_solve in S. destruct (sanitize p tf w) as [u |]; [| injection S as _ <-; auto 6]. cbv zeta in S.
    destruct (initialize (integ (reset_cached p u))) as [r0 s1] eqn:EI.
    destruct (INI (integ (reset_cached p u)) r0 s1) as [A1 [A2 [A3 [A4 A5]]]]; [cbn; congruence | exact EI |]. cbn in A1, A2, A3, A4, A5.
    assert (Q : max_step (sets s1) = max_step c /\ req_initial (sets s1) = req_initial c /\ target (sets s1) = target c /\ throws (sets s1) = throws c /\
      (req_min (sets s1) = req_min c \/ req_min (sets s1) = 0)) by (rewrite A1, A2, A3, A4, A5; auto 6).
    destruct r0 as [[] | |]; [| injection S as _ <-; exact Q | injection S as _ <-; exact Q].
    assert (SD : forall r2 s2, start_dense s1 = (r2, s2) -> sets s2 = sets s1).
    { intros r2 s2 E. unfold start_dense in E.
      repeat match type of E with (if ?b then _ else _) = _ => destruct b | match ?b with _ => _ end = _ => destruct b end; injection E as _ <-; reflexivity. }
    destruct (start_dense s1) as [r2 s2]. specialize (SD r2 s2 eq_refl).
    destruct r2 as [[] | |]; [| injection S as _ <-; cbn; rewrite SD; exact Q | injection S as _ <-; cbn; rewrite SD; exact Q].
    destruct (to_time n f s2 tf) as [r3 s3] eqn:TT. apply TTS in TT. rewrite SD in TT.
    destruct r3 as [[] | |]; [destruct (dense s3) as [[| g l] |] | |]; injection S as _ <-; cbn; rewrite TT; exact Q.
Qed.

(** * Quadratic integrands: the dense output is the integral *)
Lemma interpolates_quadratic : forall E g good k t y t' x', interpolates E (quad g) good k t [y] t' x' ->
  forall G F p q r, (forall u, t <= u <= t' -> g k u = Some (G u)) -> primitive_on G F t t' ->
  (forall u, G u = p + q * u + r * u ^ 2) ->
  exists y', x' = [y'] /\ y' = y + (F t' - F t) /\ (t < t' -> forall u, t <= u <= t' -> E O u = Some (y + (F u - F t))).
Proof.
  intros E g good k t y t' x' I. remember [y] as x eqn:EX. revert y EX.
  induction I as [t x | t x h x1 e t' x' d0 d1 KS H G0 D0 D1 HI I IH]; intros y EX G F p q r HG P EG; subst x.
  - exists y. split; [reflexivity |]. split; [ring | lra].
  - assert (T' : t + h <= t') by (clear - I; induction I; lra).
    assert (SC : forall u, G u = p + q * u + r * u ^ 2 + 0 * u ^ 3) by (intro u; rewrite EG; ring).
    assert (DIFF : forall a b, t <= a -> a <= b -> b <= t' -> F b - F a = (p * b + q / 2 * b ^ 2 + r / 3 * b ^ 3 + 0 / 4 * b ^ 4) - (p * a + q / 2 * a ^ 2 + r / 3 * a ^ 3 + 0 / 4 * a ^ 4)).
    { intros a b A B C. apply (cubic_difference G F a b p q r 0); auto. apply (primitive_sub G F t t'); auto. }
    assert (KQ := quad_kutta g k t h y (G t) (G (t + h / 2)) (G (t + h)) ltac:(apply HG; lra) ltac:(apply HG; lra) ltac:(apply HG; lra)).
    destruct (kutta_unique _ _ _ _ _ _ _ _ _ KS KQ) as [EX1 _]. subst x1.
    unfold quad, to_ode, to_scalar in D0, D1. rewrite HG in D0, D1 by lra. injection D0 as <-. injection D1 as <-.
    destruct (HI O) as [c2 [c3 [C1 [C2 C3]]]]. cbn [nth] in C1, C2, C3.
    assert (Y1 : y + h / 6 * (G t + 4 * G (t + h / 2) + G (t + h)) = y + (F (t + h) - F t)).
    { rewrite (DIFF t (t + h)) by lra. rewrite ? EG. field. }
    destruct (IH (y + h / 6 * (G t + 4 * G (t + h / 2) + G (t + h))) eq_refl G F p q r) as [y' [EY [VY CV]]]; auto.
    { intros u U. apply HG. lra. }
    { apply (primitive_sub G F t t'); auto; lra. }
    exists y'. split; [exact EY |]. split; [rewrite VY, Y1; ring |]. intros _ u U.
    destruct (Rle_lt_dec u (t + h)) as [UH | UH].
    + replace u with (t + (u - t)) by ring. rewrite C1 by lra. f_equal.
      rewrite (DIFF t (t + (u - t))) by lra. rewrite Y1 in C2. rewrite (DIFF t (t + h)) in C2 by lra. rewrite ? EG in *.
      assert (V3 : c3 = r / 3). 
      { assert (Q3 : h * (p + q * t + r * t ^ 2 + 2 * c2 * h + 3 * c3 * h ^ 2 - (p + q * (t + h) + r * (t + h) ^ 2)) = 0).
        { rewrite C3. ring. }
        assert (c3 * h ^ 3 = r / 3 * h ^ 3) by lra. apply (Rmult_eq_reg_r (h ^ 3)); [lra |]. apply pow_nonzero. lra. }
      assert (V2 : c2 = q / 2 + r * t).
      { subst c3. assert (c2 * h = (q / 2 + r * t) * h) by lra. apply (Rmult_eq_reg_r h); lra. }
      subst c2 c3. field.
    + rewrite CV by lra. f_equal. rewrite Y1. ring.
Qed.
