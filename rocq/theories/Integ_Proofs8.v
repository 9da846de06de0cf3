(** When calls return and when they hang. *)
From Coq Require Import Reals List Bool Lra Lia PeanoNat.
From Verif Require Import Integ_Model Integ_Spec Integ_Proofs Integ_Proofs2 Integ_Proofs3 Integ_Proofs4 Integ_Proofs5 Integ_Proofs6 Integ_Proofs7.
Import ListNotations.
Local Open Scope R_scope.

(** * Kutta steps are unique *)

Lemma nth_ext0 : forall x y : vec, length x = length y -> (forall i, nth i x 0 = nth i y 0) -> x = y.
Proof. intros x y L H. apply (nth_ext x y 0 0 L). intros i _. apply H. Qed.
Lemma combination_unique : forall x l y z, combination x l y -> combination x l z -> y = z.
Proof.
  intros x l y z [L1 H1] [L2 H2]. apply nth_ext0; [congruence |]. intro i. rewrite H1, H2. reflexivity.
Qed.
Lemma largest_unique : forall y z e e', largest_difference y z e -> largest_difference y z e' -> e = e'.
Proof. intros y z e e' [B1 [i1 E1]] [B2 [i2 E2]]. apply Rle_antisym; [rewrite <- E1; apply B2 | rewrite <- E2; apply B1]. Qed.
Lemma kutta_unique : forall f k t h x x1 e x1' e', kutta_step f k t h x x1 e -> kutta_step f k t h x x1' e' -> x1 = x1' /\ e = e'.
Proof.
  intros f k t h x x1 e x1' e' [d0 [da [db [xa [xb [mid [A [B [C [D [E [F [G H]]]]]]]]]]]]]
    [d0' [da' [db' [xa' [xb' [mid' [A' [B' [C' [D' [E' [F' [G' H']]]]]]]]]]]]].
  rewrite A in A'. injection A' as <-. rewrite (combination_unique _ _ _ _ B' B) in C'. rewrite C in C'. injection C' as <-.
  rewrite (combination_unique _ _ _ _ D' D) in E'. rewrite E in E'. injection E' as <-.
  assert (X := combination_unique _ _ _ _ F F'). subst x1'. split; [reflexivity |].
  rewrite (combination_unique _ _ _ _ G' G) in H'. apply (largest_unique _ _ _ _ H H').
Qed.

(** A Kutta step exists exactly when the code computes one. *)
Lemma combination1 : forall x a d, length d = length x -> combination x [(a, d)] (axpy a d x).
Proof. intros x a d L. split; [apply axpy_length |]. intro i. rewrite axpy_nth by exact L. cbn. lra. Qed.
Lemma kutta_rk3 : forall f k t h x x1 e, keeps_dimension (length x) f -> kutta_step f k t h x x1 e ->
  exists ev, rk3 f k t h x = Some (x1, ev) /\ state_norm ev = e.
Proof.
  intros f k t h x x1 e K KS. assert (KS' := KS).
  destruct KS' as [d0 [da [db [xa [xb [mid [A [B [C [D [E _]]]]]]]]]]].
  assert (L0 := K _ _ _ _ eq_refl A). assert (La := K _ _ _ _ (proj1 B) C).
  assert (XA : axpy (h / 2) d0 x = xa) by (apply (combination_unique _ _ _ _ (combination1 x (h / 2) d0 L0) B)).
  destruct B as [LXA _].
  assert (XB : axpy (2 * h) da (axpy (- h) d0 x) = xb).
  { apply (combination_unique x [(- h, d0); (2 * h, da)]); [| exact D]. split; [rewrite ? axpy_length; reflexivity |].
    intro i. rewrite axpy_nth by (rewrite axpy_length; exact La). rewrite axpy_nth by exact L0. cbn. lra. }
  assert (RK : exists x1' ev, rk3 f k t h x = Some (x1', ev)).
  { unfold rk3. rewrite A, XA, C, XB, E. eexists. eexists. reflexivity. }
  destruct RK as [x1' [ev RK]]. destruct (rk3_kutta f k t h x x1' ev K RK) as [KS2 _].
  destruct (kutta_unique f k t h x x1 e x1' (state_norm ev) KS KS2) as [-> ->]. exists ev. auto.
Qed.

(** * Steps without dense output never throw by themselves *)
Lemma step_plain : forall f s h, dense s = None -> step f s h = (Ret (fst (do_step f s h)), snd (do_step f s h)).
Proof. intros f s h D. unfold step. destruct (do_step f s h) as [e s1]. rewrite D. reflexivity. Qed.
Lemma do_step_some : forall f s h x x1 ev, xc s = Some x -> rk3 f (param s) (time s) h x = Some (x1, ev) ->
  do_step f s h = (Some (state_norm ev), set_context s (time s + h) (Some x1)).
Proof. intros f s h x x1 ev X R. unfold do_step. rewrite X, R. reflexivity. Qed.

Lemma state_norm_nonneg : forall e, 0 <= state_norm e.
Proof. induction e; cbn; [lra |]. apply Rle_trans with (1 := IHe). apply Rmax_r. Qed.

(** * Termination *)

(** Steps of at most hs inside [t0, tf] from states of dimension d meet the accuracy. *)
Definition smooth (f : ode) (k : vec) (t0 tf : R) (d : nat) (hs acc : R) : Prop :=
  forall t h x, t0 <= t -> 0 <= h <= hs -> t + h <= tf -> length x = d -> exists x1 e, kutta_step f k t h x x1 e /\ e <= acc.

Section TERM.
Variable f : ode.
Variables (k : vec) (t0 tf hs m acc r : R) (d : nat).
Hypothesis K : keeps_dimension d f.
Hypothesis hs_pos : 0 < hs.
Hypothesis m_pos : 0 < m.
Hypothesis SM : smooth f k t0 tf d hs acc.
Hypothesis SMALL : forall t, t0 <= t <= tf -> smallest_step r t <= hs / 10.

(** The states of the loop. *)
Definition running (s : istate) : Prop :=
  well m acc s /\ dense s = None /\ param s = k /\ req_min (sets s) = r /\ t0 <= time s <= tf /\
  exists x, xc s = Some x /\ length x = d.

Lemma inner : forall N n s a at0 hm, running s -> 0 < a -> 0 <= hm -> time s + hm <= tf ->
  1001 / 1000 * a <= hs * (11 / 10) ^ N -> (N < n)%nat ->
  exists full s' h next (lim : bool) s1 e, step_once n f s hm a at0 = (Ret full, s') /\ full = eqb h hm /\
    step f s h = (Ret e, s1) /\ s' = (if lim then s1 else set_ideal s1 next) /\ h <= next /\ next <= Rmax m (hs / 10) /\
    0 <= h <= hm /\ (h = hm \/ h = m \/ Rmin a (hs / 10) <= h) /\ h <= m /\ exists x1 e0, xc s1 = Some x1 /\ length x1 = d /\ e = Some e0.
Proof.
  induction N as [| N IH]; intros n s a at0 hm RN A0 HM TM AN FN; destruct n as [| n]; try lia.
  - (* the first attempt is small enough *)
    destruct RN as [W [D [P [RM [TT [x [X LX]]]]]]]. cbn [step_once].
    destruct (attempt_size s hm a) as [lim h] eqn:AS.
    destruct (attempt_bounds s hm a lim h m (w_max _ _ _ W) (w_m0 _ _ _ W) HM ltac:(lra) AS) as [HB [HH [HA HC]]].
    cbn [pow] in AN. destruct (SM (time s) h x) as [x1 [e [KS EA]]]; try lra; auto.
    rewrite <- P in KS. destruct (kutta_rk3 f _ _ _ _ _ _ ltac:(rewrite LX; exact K) KS) as [ev [RK NE]].
    rewrite (step_plain f s h D). rewrite (do_step_some f s h x x1 ev X RK). cbn [fst snd].
    set (s1 := set_context s (time s + h) (Some x1)).
    assert (ACC : accuracy_in_use s1 = acc) by (unfold accuracy_in_use; cbn; rewrite (w_acc _ _ _ W); reflexivity).
    destruct (adjusted_accepts s1 (state_norm ev) h at0) as [next [at' [CA HN]]]; [lra | | apply state_norm_nonneg | rewrite ACC; lra |].
    { intros m' M'. cbn in M'. rewrite (w_max _ _ _ W) in M'. injection M' as <-. lra. }
    rewrite CA. exists (eqb h hm), (if lim then s1 else set_ideal s1 next), h, next, lim, s1, (Some (state_norm ev)).
    split; [reflexivity |]. split; [reflexivity |].
    split; [rewrite (step_plain f s h D), (do_step_some f s h x x1 ev X RK); reflexivity |].
    split; [reflexivity |]. split; [exact HN |]. split.
    { clear - CA W P TT SMALL RM TM HH HB HM. unfold calc_adjusted in CA. cbv zeta in CA.
      match type of CA with (if ?c then _ else _) = _ => destruct c end; [injection CA as <- _; apply Rle_trans with (2 := Rmax_l _ _); lra |].
      match type of CA with (if ?c then _ else _) = _ => destruct c end; [| discriminate].
      injection CA as _ <- _. apply Rmax_lub.
      - apply Rle_trans with (2 := Rmax_l _ _). apply cap_max. cbn. apply (w_max _ _ _ W).
      - apply Rle_trans with (2 := Rmax_r _ _). rewrite working_min_smallest. cbn [s1 set_context time sets]. rewrite RM. apply SMALL. lra. }
    split; [lra |]. split; [| split; [lra |]].
    + destruct HC as [C | [C | [C _]]]; [left; exact C | right; left; exact C |]. right. right. rewrite C. apply Rmin_l.
    + exists x1, (state_norm ev). split; [reflexivity |]. split; [| reflexivity]. destruct KS as [? [? [? [? [? [? [_ [_ [_ [_ [_ [[CL _] _]]]]]]]]]]]]. congruence.
  - destruct RN as [W [D [P [RM [TT [x [X LX]]]]]]]. assert (RN : running s) by (refine (conj W (conj D (conj P (conj RM (conj TT _))))); exists x; auto).
    cbn [step_once]. destruct (attempt_size s hm a) as [lim h] eqn:AS.
    destruct (attempt_bounds s hm a lim h m (w_max _ _ _ W) (w_m0 _ _ _ W) HM ltac:(lra) AS) as [HB [HH [HA HC]]].
    destruct (Rle_lt_dec h hs) as [HS | HS].
    + (* as above *)
      destruct (SM (time s) h x) as [x1 [e [KS EA]]]; try lra; auto.
      rewrite <- P in KS. destruct (kutta_rk3 f _ _ _ _ _ _ ltac:(rewrite LX; exact K) KS) as [ev [RK NE]].
      rewrite (step_plain f s h D). rewrite (do_step_some f s h x x1 ev X RK). cbn [fst snd].
      set (s1 := set_context s (time s + h) (Some x1)).
      assert (ACC : accuracy_in_use s1 = acc) by (unfold accuracy_in_use; cbn; rewrite (w_acc _ _ _ W); reflexivity).
      destruct (adjusted_accepts s1 (state_norm ev) h at0) as [next [at' [CA HN]]]; [lra | | apply state_norm_nonneg | rewrite ACC; lra |].
      { intros m' M'. cbn in M'. rewrite (w_max _ _ _ W) in M'. injection M' as <-. lra. }
      rewrite CA. exists (eqb h hm), (if lim then s1 else set_ideal s1 next), h, next, lim, s1, (Some (state_norm ev)).
      split; [reflexivity |]. split; [reflexivity |].
      split; [rewrite (step_plain f s h D), (do_step_some f s h x x1 ev X RK); reflexivity |].
      split; [reflexivity |]. split; [exact HN |]. split.
      { clear - CA W P TT SMALL RM TM HH HB HM. unfold calc_adjusted in CA. cbv zeta in CA.
        match type of CA with (if ?c then _ else _) = _ => destruct c end; [injection CA as <- _; apply Rle_trans with (2 := Rmax_l _ _); lra |].
        match type of CA with (if ?c then _ else _) = _ => destruct c end; [| discriminate].
        injection CA as _ <- _. apply Rmax_lub.
        - apply Rle_trans with (2 := Rmax_l _ _). apply cap_max. cbn. apply (w_max _ _ _ W).
        - apply Rle_trans with (2 := Rmax_r _ _). rewrite working_min_smallest. cbn [s1 set_context time sets]. rewrite RM. apply SMALL. lra. }
      split; [lra |]. split; [| split; [lra |]].
      * destruct HC as [C | [C | [C _]]]; [left; exact C | right; left; exact C |]. right. right. rewrite C. apply Rmin_l.
      * exists x1, (state_norm ev). split; [reflexivity |]. split; [| reflexivity]. destruct KS as [? [? [? [? [? [? [_ [_ [_ [_ [_ [[CL _] _]]]]]]]]]]]]. congruence.
    + (* a longer step: accepted or shrunk *)
      rewrite (step_plain f s h D).
      set (s1 := snd (do_step f s h)). set (e := fst (do_step f s h)).
      assert (DS : do_step f s h = (e, s1)) by apply surjective_pairing.
      destruct (do_step_frame f s h e s1 DS) as [T1 [P1 [I1 [N1 [D1 [S1 [X1 EQ1]]]]]]].
      assert (RV : revert s s1 = s).
      { unfold revert. rewrite D1, D. rewrite EQ1. unfold set_dense, set_context. cbn.
        rewrite <- D. apply istate_eta. }
      assert (SML : smallest_step r (time s1) <= hs / 10) by (apply SMALL; rewrite T1; lra).
      assert (NEXT : forall nx at', 1 / 10 * h <= nx <= 9 / 10 * h ->
        exists full s' h0 next (lim0 : bool) s2 e2, step_once n f s hm nx at' = (Ret full, s') /\ full = eqb h0 hm /\
          step f s h0 = (Ret e2, s2) /\ s' = (if lim0 then s2 else set_ideal s2 next) /\ h0 <= next /\ next <= Rmax m (hs / 10) /\
          0 <= h0 <= hm /\ (h0 = hm \/ h0 = m \/ Rmin a (hs / 10) <= h0) /\ h0 <= m /\
          exists x1 e0, xc s2 = Some x1 /\ length x1 = d /\ e2 = Some e0).
      { intros nx at' NB. destruct (IH n s nx at' hm RN) as [full [s' [h0 [next [lim0 [s2 [e2 [E1 [E2 [E3 [E4 [E5 [E6 [E7 [E8 [E9 E10]]]]]]]]]]]]]]]]; try lra; try lia.
        - cbn [pow] in AN. nra.
        - exists full, s', h0, next, lim0, s2, e2. repeat (split; [assumption || lra |]). split; [| split; [exact E9 | exact E10]].
          destruct E8 as [E8 | [E8 | E8]]; [left; exact E8 | right; left; exact E8 |]. right. right.
          apply Rle_trans with (2 := E8). apply Rmin_glb; [| apply Rmin_r]. apply Rle_trans with (1 := Rmin_r _ _). lra. }
      destruct e as [e0 |] eqn:EE.
      * assert (ACC : accuracy_in_use s1 = acc) by (unfold accuracy_in_use; rewrite S1, (w_acc _ _ _ W); reflexivity).
        assert (MX : forall m', max_step (sets s1) = Some m' -> h <= m').
        { intros m' M'. rewrite S1, (w_max _ _ _ W) in M'. injection M' as <-. lra. }
        assert (E0 : 0 <= e0).
        { unfold do_step in DS. rewrite X in DS. destruct (rk3 f (param s) (time s) h x) as [[xx ev] |]; [| discriminate].
          injection DS as <- _. apply state_norm_nonneg. }
        assert (LEN : exists x1, xc s1 = Some x1 /\ length x1 = d).
        { unfold do_step in DS. rewrite X in DS. destruct (rk3 f (param s) (time s) h x) as [[xx ev] |] eqn:RK; [| discriminate].
          injection DS as _ <-. exists xx. split; [reflexivity |]. destruct (rk3_kutta f _ _ _ _ _ _ ltac:(rewrite LX; exact K) RK) as [_ CL]. congruence. }
        assert (FIN : forall next at', calc_adjusted s1 (Some e0) h at0 = (Some (true, next), at') -> h <= next ->
          exists full s' h0 next (lim0 : bool) s2 e2,
          (let '(r0, s3) := (Ret (Some e0), s1) in match r0 with
            | Ret e => match calc_adjusted s3 e h at0 with
              | (None, _) => (Exc, s3)
              | (Some (true, next), _) => (Ret (eqb h hm), if lim then s3 else set_ideal s3 next)
              | (Some (false, next), at') => step_once n f (revert s s3) hm next at'
              end | Exc => (Exc, s3) | More => (More, s3) end) = (Ret full, s') /\ full = eqb h0 hm /\
          step f s h0 = (Ret e2, s2) /\ s' = (if lim0 then s2 else set_ideal s2 next) /\ h0 <= next /\ next <= Rmax m (hs / 10) /\
          0 <= h0 <= hm /\ (h0 = hm \/ h0 = m \/ Rmin a (hs / 10) <= h0) /\ h0 <= m /\
          exists x1 e0, xc s2 = Some x1 /\ length x1 = d /\ e2 = Some e0).
        { intros next at' CA HN. cbv zeta. rewrite CA. destruct LEN as [x1 [LX1 LX2]].
          exists (eqb h hm), (if lim then s1 else set_ideal s1 next), h, next, lim, s1, (Some e0).
          split; [reflexivity |]. split; [reflexivity |].
          split; [rewrite (step_plain f s h D), DS; reflexivity |].
          split; [reflexivity |]. split; [exact HN |]. split.
          { unfold calc_adjusted in CA. cbv zeta in CA.
            match type of CA with (if ?c then _ else _) = _ => destruct c end; [injection CA as <- _; apply Rle_trans with (2 := Rmax_l _ _); lra |].
            match type of CA with (if ?c then _ else _) = _ => destruct c end; [| discriminate].
            injection CA as _ <- _. apply Rmax_lub.
            - apply Rle_trans with (2 := Rmax_l _ _). apply cap_max. rewrite S1. apply (w_max _ _ _ W).
            - apply Rle_trans with (2 := Rmax_r _ _). rewrite working_min_smallest. rewrite S1, RM. exact SML. }
          split; [lra |]. split; [| split; [lra |]].
          - destruct HC as [C | [C | [C _]]]; [left; exact C | right; left; exact C |]. right. right. rewrite C. apply Rmin_l.
          - exists x1, e0. auto. }
        destruct (Rle_lt_dec e0 acc) as [EA | EA].
        -- destruct (adjusted_accepts s1 e0 h at0) as [next [at' [CA HN]]]; [lra | exact MX | exact E0 | rewrite ACC; lra |].
           apply (FIN next at' CA HN).
        -- assert (SH := adjusted_shrinks s1 e0 h at0 ltac:(lra) ltac:(rewrite ACC; apply (w_acc0 _ _ _ W)) ltac:(rewrite ACC; exact EA) MX).
           destruct at0.
           ++ apply (FIN h true SH). lra.
           ++ destruct SH as [nx [NB CA]].
              assert (WM : working_min s1 <= nx). { rewrite working_min_smallest, S1, RM. lra. }
              rewrite (ltb_f nx) in CA by exact WM. cbn [andb] in CA. rewrite Rmax_left in CA by exact WM.
              rewrite (leb_f h nx) in CA by lra. rewrite CA. rewrite RV. apply NEXT. exact NB.
      * cbn [calc_adjusted]. rewrite RV. apply NEXT. lra.
Qed.

Lemma outer : forall N delta M n s a, (forall b, b <= Rmax m (hs / 10) -> 1001 / 1000 * b <= hs * (11 / 10) ^ N) ->
  0 < delta -> delta <= m -> delta <= hs / 10 ->
  running s -> first_attempt s = Some a -> delta <= a <= Rmax m (hs / 10) -> tf - time s <= INR M * delta ->
  (N + M + 2 <= n)%nat -> exists s', to_time n f s tf = (Ret tt, s') /\ xc s' <> None.
Proof.
  intros N delta M. induction M as [| M IH]; intros n s a BN D0 DM DH RN FA AB TM FN; destruct n as [| n]; try lia.
  all: destruct RN as [W [D [P [RM [TT [x [X LX]]]]]]];
    assert (RN : running s) by (refine (conj W (conj D (conj P (conj RM (conj TT _))))); exists x; auto).
  all: cbn [to_time]; rewrite (w_max _ _ _ W); set (b := Rmin tf (time s + m)) in *.
  all: assert (B1 : b <= tf) by apply Rmin_l; assert (B2 : b <= time s + m) by apply Rmin_r.
  all: assert (B3 : time s <= b) by (apply Rmin_glb; lra).
  all: assert (IP : in_past s None || in_past s None || in_past s (Some b) = false) by (cbn [in_past orb]; apply ltb_f; lra).
  all: assert (NF : no_further n f s None None (Some b) = match xc s with Some [] => (Ret ReachedBoundaryTime, set_time s b) | _ =>
     match step_once n f s (b - time s) a false with
        | (Ret full, s1) => if full || leb b (time s1) then (Ret ReachedBoundaryTime, set_time s1 b) else (Ret TimeHasAdvanced, s1)
        | (Exc, s1) => (Exc, s1) | (More, s1) => (More, s1) end end)
    by (unfold no_further; rewrite (w_init _ _ _ W); cbn [negb]; rewrite IP; rewrite (boundary_target s b m (w_max _ _ _ W) B2);
        rewrite (ltb_f (b - time s) 0) by lra; rewrite FA; reflexivity).
  all: rewrite NF; clear NF.
  all: destruct (inner N n s a false (b - time s) RN) as [full [s' [h [next [lim [s1 [e [E1 [E2 [E3 [E4 [E5 [E6 [E7 [E8 [E9 [x1 [e0 [E10 [E11 E12]]]]]]]]]]]]]]]]]]]];
    [lra | lra | lra | apply BN; apply AB | lia |].
  all: rewrite E1; destruct (step_revert f s h e s1 (w_al _ _ _ W) E3) as [_ [AL1 [T1 [P1 [I1 [N1 [S1 X1]]]]]]].
  all: assert (T' : time s' = time s + h) by (rewrite E4; destruct lim; exact T1).
  all: assert (X' : xc s' = Some x1) by (rewrite E4; destruct lim; exact E10).
  (* the two ways to leave the step *)
  all: assert (BF : b = tf \/ b = time s + m) by (unfold b, Rmin; destruct (Rle_dec tf (time s + m)); auto).
  all: assert (DONE : exists r0 s2, (if full || leb b (time s') then (Ret ReachedBoundaryTime, set_time s' b) else (Ret TimeHasAdvanced, s')) = (Ret r0, s2) /\
     time s2 = time s' /\ xc s2 = Some x1 /\ s2 = s')
    by (subst full; destruct (eqb h (b - time s)) eqn:FE; cbn [orb];
        [ apply eqb_iff in FE; eexists; eexists; split; [reflexivity |]; rewrite set_time_id by (rewrite T'; lra); auto
        | destruct (leb b (time s')) eqn:LE;
          [ apply leb_iff in LE; eexists; eexists; split; [reflexivity |]; rewrite set_time_id by (rewrite T' in *; lra); auto
          | eexists; eexists; split; [reflexivity |]; auto ] ]).
  all: destruct DONE as [r0 [s2 [DE [T2 [X2 S2]]]]].
  all: assert (BODY : forall rest, match (match xc s with Some [] => (Ret ReachedBoundaryTime, set_time s b) | _ =>
       if full || leb b (time s') then (Ret ReachedBoundaryTime, set_time s' b) else (Ret TimeHasAdvanced, s') end) with
       | (Ret _, s1) => if ltb (time s1) tf then rest s1 else (Ret tt, s1) | (Exc, s1) => (Exc, s1) | (More, s1) => (More, s1) end =
       match xc s with Some [] => if ltb b tf then rest (set_time s b) else (Ret tt, set_time s b) | _ => if ltb (time s') tf then rest s' else (Ret tt, s') end)
    by (intro rest; rewrite DE, S2; destruct (xc s) as [[| y l] |]; reflexivity).
  all: rewrite BODY; clear BODY.
  - cbn in TM. assert (b = tf) by lra. assert (h = 0) by lra.
    destruct (xc s) as [[| y l] |] eqn:EXX.
    + rewrite ltb_f by lra. eexists. split; [reflexivity |]. cbn. rewrite EXX. discriminate.
    + rewrite ltb_f by lra. eexists. split; [reflexivity |]. congruence.
    + discriminate.
  - assert (STEP : forall q, running q -> xc q <> None ->
       tf <= time q \/ time s + delta <= time q /\ (exists a', first_attempt q = Some a' /\ delta <= a' <= Rmax m (hs / 10)) ->
       exists s3, (if ltb (time q) tf then to_time n f q tf else (Ret tt, q)) = (Ret tt, s3) /\ xc s3 <> None).
    { intros q RQ XQ PR. destruct (ltb (time q) tf) eqn:LQ; [| exists q; auto]. apply ltb_iff in LQ.
      destruct PR as [PR | [PR [a' [FQ AQ]]]]; [lra |].
      apply (IH n q a'); auto; [| lia]. rewrite S_INR in TM. lra. }
    rewrite X in *. destruct x as [| y l].
    + (* an empty state just moves *)
      change b with (time (set_time s b)) at 1. apply STEP.
      * refine (conj _ (conj D (conj P (conj RM (conj _ _))))); [destruct W; constructor; auto; unfold aligned; cbn; rewrite D; exact I | cbn; lra |].
        exists []. cbn. auto.
      * cbn. rewrite X. discriminate.
      * cbn. destruct BF; [left; lra | right]. split; [lra |]. exists a. auto.
    + assert (W' : well m acc s').
      { destruct W as [w1 w2 w3 w4 w5 w6 w7]. constructor; auto.
        - rewrite E4. destruct lim; exact AL1.
        - rewrite E4. destruct lim; cbn; rewrite S1; exact w2.
        - rewrite E4. destruct lim; cbn; rewrite S1; exact w4.
        - rewrite E4. destruct lim; cbn; rewrite N1; exact w6.
        - intros c FC. rewrite E4 in FC. destruct lim.
          + apply w7. unfold first_attempt in *. rewrite <- I1, <- S1. exact FC.
          + cbn in FC. injection FC as <-. lra. }
      apply STEP.
      * refine (conj W' (conj _ (conj _ (conj _ (conj _ _))))).
        -- rewrite E4. destruct (step_frame f s h e s1 (w_al _ _ _ W) E3) as [c1 [_ [EC _]]]. rewrite D in EC. rewrite EC. destruct lim; reflexivity.
        -- rewrite E4. destruct lim; cbn; congruence.
        -- rewrite E4. destruct lim; cbn; congruence.
        -- lra.
        -- exists x1. auto.
      * congruence.
      * assert (PR : tf <= time s' \/ delta <= h).
        { destruct E8 as [E8 | [E8 | E8]].
          - destruct BF; [left; lra |]. right. lra.
          - right. lra.
          - right. assert (delta <= Rmin a (hs / 10)) by (apply Rmin_glb; lra). lra. }
        destruct PR as [PR | PR]; [left; exact PR | right]. split; [lra |]. destruct lim.
        -- exists a. split; [| exact AB]. rewrite E4. unfold first_attempt in *. rewrite I1, S1. exact FA.
        -- exists next. split; [rewrite E4; reflexivity | lra].
Qed.
End TERM.
