(** What the theorems about the problem, the dense output and the arc length integrators rest on. *)
From Coq Require Import Reals List Bool Lra Lia PeanoNat.
From Verif Require Import Integ_Model Integ_Spec Integ_Proofs Integ_Proofs2 Integ_Proofs3 Integ_Proofs4 Integ_Proofs5 Integ_Proofs6 Integ_Proofs7 Integ_Proofs8 Integ_Proofs9 Integ_Proofs10.
Import ListNotations.
Local Open Scope R_scope.

Lemma history_tuned : forall f v c p m T r, tuned m T r c -> history f v c p -> tuned m T r (sets (integ p)).
Proof.
  intros f v c p m T r TU H. destruct (history_sensible f v c p m T r TU H) as [c' [-> [A1 [A2 [A3 [A4 A5]]]]]].
  destruct TU as [[[M M0] [h0 [H0 P0]]] [TT [T0 [RM R0]]]].
  refine (conj (conj (conj _ M0) _) (conj _ (conj T0 (conj _ R0)))); [congruence | exists h0; split; [congruence | exact P0] | congruence |].
  destruct A5 as [A5 | A5]; rewrite A5; lra.
Qed.

(** The settings that survive starting over. *)
Definition same_setup (c c' : settings) : Prop :=
  max_step c' = max_step c /\ req_initial c' = req_initial c /\ target c' = target c /\ throws c' = throws c.
Lemma reset_same : forall p q u, same_setup (sets (integ p)) (sets (integ q)) -> integ (reset_cached p u) = integ (reset_cached q u).
Proof. intros p q u [A [B [C D]]]. unfold reset_cached. cbn. rewrite A, B, C, D. reflexivity. Qed.

(** * The events of a step *)
Lemma step_target_events : forall s pub upd bnd r t m, max_step (sets s) = Some m -> 0 <= m -> xc s <> Some [] ->
  step_target s pub upd bnd = (r, Some t) ->
  (forall e, pub = Some e \/ upd = Some e \/ bnd = Some e -> t <= e) /\ 
  (r = ReachedPublishTime -> pub = Some t) /\ (r = ReachedUpdateTime -> upd = Some t) /\ (r = ReachedBoundaryTime -> bnd = Some t) /\
  (r = TimeHasAdvanced -> t = time s + m /\ forall e, pub = Some e \/ upd = Some e \/ bnd = Some e -> t < e).
Proof.
  intros s pub upd bnd r t m M M0 X H. unfold step_target in H.
  set (first := if inf_lt pub upd then (ReachedPublishTime, pub) else (ReachedUpdateTime, upd)) in *.
  assert (F : match first with (r1, t1) =>
     (match t1 with Some t1 => forall e, pub = Some e \/ upd = Some e -> t1 <= e | None => pub = None /\ upd = None end) /\
     (r1 = ReachedPublishTime /\ t1 = pub \/ r1 = ReachedUpdateTime /\ t1 = upd) end).
  { unfold first. destruct pub as [p |], upd as [u |]; cbn [inf_lt].
    - destruct (ltb p u) eqn:L; [apply ltb_iff in L | apply ltb_no in L]; split; auto; intros e [E | E]; injection E as <-; lra.
    - split; auto. intros e [E | E]; [injection E as <-; lra | discriminate].
    - split; auto. intros e [E | E]; [discriminate | injection E as <-; lra].
    - split; auto. }
  destruct first as [r1 t1]. destruct F as [F1 F2].
  set (second := if inf_lt bnd t1 then (ReachedBoundaryTime, bnd) else (r1, t1)) in *.
  assert (G : match second with (r2, t2) =>
     (match t2 with Some t2 => forall e, pub = Some e \/ upd = Some e \/ bnd = Some e -> t2 <= e | None => pub = None /\ upd = None /\ bnd = None end) /\
     (r2 = ReachedPublishTime /\ t2 = pub \/ r2 = ReachedUpdateTime /\ t2 = upd \/ r2 = ReachedBoundaryTime /\ t2 = bnd) end).
  { unfold second. destruct bnd as [b |], t1 as [t1 |]; cbn [inf_lt].
    - destruct (ltb b t1) eqn:L; [apply ltb_iff in L | apply ltb_no in L]; split.
      + intros e [E | [E | E]]; [assert (Q := F1 e (or_introl E)); lra | assert (Q := F1 e (or_intror E)); lra | injection E as <-; lra].
      + auto.
      + intros e [E | [E | E]]; [apply F1; auto | apply F1; auto | injection E as <-; lra].
      + destruct F2 as [F2 | F2]; auto.
    - destruct F1 as [-> ->]. split; [| auto]. intros e [E | [E | E]]; [discriminate | discriminate | injection E as <-; lra].
    - split.
      + intros e [E | [E | E]]; [apply F1; auto | apply F1; auto | discriminate].
      + destruct F2 as [F2 | F2]; auto.
    - destruct F1 as [-> ->]. split; auto. destruct F2 as [F2 | F2]; auto. }
  destruct second as [r2 t2]. destruct G as [G1 G2]. rewrite M in H.
  assert (H' : (if match r2 with ReachedBoundaryTime => inf_lt (Some (time s + m)) t2 | _ => inf_lt (Some (time s + m * (101 / 100))) t2 end
     then (TimeHasAdvanced, Some (time s + m)) else (r2, t2)) = (r, Some t)).
  { destruct (xc s) as [[| y l] |]; [contradiction X; reflexivity | exact H | exact H]. }
  clear H.
  assert (LATE : forall b, b = match r2 with ReachedBoundaryTime => inf_lt (Some (time s + m)) t2 | _ => inf_lt (Some (time s + m * (101 / 100))) t2 end ->
     b = true -> match t2 with Some t2 => time s + m < t2 | None => True end).
  { intros b EB BT. rewrite BT in EB. destruct t2 as [t2 |]; [| exact I]. destruct r2; cbn [inf_lt] in EB; symmetry in EB; apply ltb_iff in EB; lra. }
  specialize (LATE _ eq_refl).
  destruct (match r2 with ReachedBoundaryTime => inf_lt (Some (time s + m)) t2 | _ => inf_lt (Some (time s + m * (101 / 100))) t2 end).
  - specialize (LATE eq_refl). injection H' as <- <-.
    assert (Q : forall e, pub = Some e \/ upd = Some e \/ bnd = Some e -> time s + m < e).
    { intros e E. destruct t2 as [t2 |]; [assert (Q := G1 e E); lra |]. destruct G1 as [-> [-> ->]]. destruct E as [E | [E | E]]; discriminate. }
    split; [intros e E; left; apply Q; exact E |]. repeat split; try discriminate; auto.
  - injection H' as -> ->. split; [exact G1 |].
    destruct G2 as [[-> E] | [[-> E] | [-> E]]]; repeat split; intros; try discriminate; auto.
Qed.

(** * A step with dense output *)
Lemma one_dense_step : forall n f s tf x x1 ev m acc a, well m acc s -> dense s = Some [] -> xc s = Some x -> x <> [] ->
  first_attempt s = Some a -> eps_time <= tf - time s <= m -> tf - time s < 1001 / 1000 * a ->
  rk3 f (param s) (time s) (tf - time s) x = Some (x1, ev) -> state_norm ev <= acc ->
  exists s', to_time (S (S n)) f s tf = (Ret tt, s') /\ xc s' = Some x1 /\
    dense s' = Some [Seg (time s) tf (Some x) (Some x1) (f (param s) (time s) x) (f (param s) tf x1)].
Proof.
  intros n f s tf x x1 ev m acc a W D X XN FA [H0 HM] HA RK EA. assert (EP := eps_pos).
  cbn [to_time]. rewrite (w_max _ _ _ W). rewrite Rmin_left by lra. rewrite (no_further_boundary (S n) f s tf m acc a x W X XN FA) by lra.
  cbn [step_once].
  assert (AS : attempt_size s (tf - time s) a = (ltb (tf - time s) (95 / 100 * a), tf - time s)).
  { unfold attempt_size. f_equal. unfold cap. rewrite (w_max _ _ _ W). rewrite (ltb_t (tf - time s) (1001 / 1000 * a)) by lra.
    destruct (ltb (tf - time s) (95 / 100 * a)); apply Rmin_left; lra. }
  rewrite AS.
  assert (ST : step f s (tf - time s) = (Ret (Some (state_norm ev)),
    set_dense (set_context s tf (Some x1)) (Some [Seg (time s) tf (Some x) (Some x1) (f (param s) (time s) x) (f (param s) tf x1)]))).
  { unfold step. rewrite (do_step_some f s (tf - time s) x x1 ev X RK). rewrite D.
    replace (time s + (tf - time s)) with tf by ring. cbn [set_context time xc map last]. rewrite X.
    rewrite (ltb_f (tf - time s) eps_time) by lra. reflexivity. }
  rewrite ST. set (s1 := set_dense _ _).
  assert (ACC : accuracy_in_use s1 = acc) by (unfold accuracy_in_use; cbn; rewrite (w_acc _ _ _ W); reflexivity).
  destruct (adjusted_accepts s1 (state_norm ev) (tf - time s) false) as [next [at' [CA HN]]];
    [lra | | apply state_norm_nonneg | rewrite ACC; exact EA |].
  { intros m' M'. cbn in M'. rewrite (w_max _ _ _ W) in M'. injection M' as <-. lra. }
  rewrite CA. rewrite eqb_t by reflexivity. cbn [orb].
  assert (TM : forall b : bool, time (set_time (if b then s1 else set_ideal s1 next) tf) = tf) by (intros []; reflexivity).
  rewrite TM. rewrite (ltb_f tf tf) by lra.
  eexists. split; [reflexivity |]. split; destruct (ltb (tf - time s) (95 / 100 * a)); reflexivity.
Qed.

(** * The first call on a new problem *)
Lemma fresh_start : forall v c m h0 T r, acceptable m h0 T r c ->
  exists s1, initialize (integ (fresh_ivp v c)) = (Ret tt, s1) /\ well m (Rmin T (1 / 10)) s1 /\ time s1 = f_t0 v /\ xc s1 = Some (f_x0 v) /\
    param s1 = f_k v /\ dense s1 = None /\ first_attempt s1 = Some h0 /\ req_min (sets s1) = r /\ throws (sets s1) = throws c.
Proof.
  intros v c m h0 T r AC. assert (AC' := AC). destruct AC' as [_ [HI _]].
  destruct (acceptable_initialize m h0 T r (integ (fresh_ivp v c)) AC eq_refl) as [s1 [EI [FA RM]]].
  destruct (initialize_well (integ (fresh_ivp v c)) s1 m T r (acceptable_tuned m h0 T r c AC) eq_refl I EI) as [W [E1 [E2 [E3 [E4 [_ [_ [_ [_ TH]]]]]]]]].
  exists s1. cbn in *. auto 12.
Qed.
Lemma sanitize_default : forall p tf, f_t0 (defaults p) <= tf -> sanitize p tf no_values = Some (defaults p).
Proof.
  intros p tf T. unfold sanitize, no_values. cbn [v_t0 v_x0 v_k or_default]. rewrite ltb_f by exact T.
  rewrite ? Nat.eqb_refl. cbn. destruct (defaults p). reflexivity.
Qed.
Lemma solve_start_same : forall p tf, time (integ p) <= tf -> solve_start p tf (current p) = p.
Proof.
  intros p tf T. unfold solve_start. rewrite ltb_f by exact T.
  replace (same_values (current p) (current p)) with true; [reflexivity |]. symmetry. apply same_values_iff. reflexivity.
Qed.

(** Solve on a new problem by one step. *)
Lemma fresh_one_step : forall n f v c m h0 T r tf x1 ev, acceptable m h0 T r c -> f_x0 v <> [] ->
  0 <= tf - f_t0 v <= m -> tf - f_t0 v < 1001 / 1000 * h0 ->
  rk3 f (f_k v) (f_t0 v) (tf - f_t0 v) (f_x0 v) = Some (x1, ev) -> state_norm ev <= Rmin T (1 / 10) ->
  exists p', solve (S (S n)) f (fresh_ivp v c) tf no_values = (Ret (Some x1), p') /\
    (tf - f_t0 v < 95 / 100 * h0 -> current p' = v /\ defaults p' = v /\ initialized (integ p') = true /\
       well m (Rmin T (1 / 10)) (integ p') /\ dense (integ p') = None /\ xc (integ p') = Some x1 /\ time (integ p') = tf /\ param (integ p') = f_k v /\
       first_attempt (integ p') = Some h0).
Proof.
  intros n f v c m h0 T r tf x1 ev AC XN H HA RK EA.
  destruct (fresh_start v c m h0 T r AC) as [s1 [EI [W [T1 [X1 [P1 [D1 [FA [RM TH]]]]]]]]].
  rewrite <- P1, <- T1 in RK. rewrite <- T1 in H, HA |- *.
  destruct (one_step n f s1 tf (f_x0 v) x1 ev m (Rmin T (1 / 10)) h0 W D1 X1 XN FA H HA RK EA) as [s2 [TT [X2 [T2 LIM]]]].
  exists (set_integ (fresh_ivp v c) s2). split.
  - assert (SV : sanitize (fresh_ivp v c) tf no_values = Some v) by (apply (sanitize_default (fresh_ivp v c) tf); cbn; lra).
    assert (ST : solve_start (fresh_ivp v c) tf v = fresh_ivp v c) by (apply (solve_start_same (fresh_ivp v c) tf); cbn; lra).
    rewrite <- X2. rewrite (solve_from (S (S n)) f (fresh_ivp v c) tf no_values v s1 s2 SV); try rewrite ST; auto.
  - intro LM. specialize (LIM LM). cbn [set_integ current defaults integ fresh_ivp]. subst s2.
    split; [reflexivity |]. split; [reflexivity |]. split; [exact (w_init _ _ _ W) |]. split; [| auto].
    destruct W; constructor; auto. unfold aligned. cbn. rewrite D1. exact I.
Qed.

(** Solve again, by one step, on a problem that goes on. *)
Lemma again_one_step : forall n f p m acc a tf x x1 ev, well m acc (integ p) -> defaults p = current p ->
  dense (integ p) = None -> xc (integ p) = Some x -> x <> [] -> f_t0 (current p) <= time (integ p) -> first_attempt (integ p) = Some a ->
  0 <= tf - time (integ p) <= m -> tf - time (integ p) < 1001 / 1000 * a ->
  rk3 f (param (integ p)) (time (integ p)) (tf - time (integ p)) x = Some (x1, ev) -> state_norm ev <= acc ->
  exists p', solve (S (S n)) f p tf no_values = (Ret (Some x1), p').
Proof.
  intros n f p m acc a tf x x1 ev W DC D X XN T0 FA H HA RK EA.
  destruct (one_step n f (integ p) tf x x1 ev m acc a W D X XN FA H HA RK EA) as [s2 [TT [X2 _]]].
  assert (SV : sanitize p tf no_values = Some (current p)) by (rewrite <- DC; apply sanitize_default; rewrite DC; lra).
  assert (ST := solve_start_same p tf ltac:(lra)).
  rewrite (solve_unfold (S (S n)) f p tf no_values (current p) SV). cbv zeta. rewrite ST. rewrite (w_init _ _ _ W). rewrite TT.
  rewrite X2. eexists. reflexivity.
Qed.

(** * Dense outputs *)
Lemma evaluate_domain : forall d i t a b, out_start d = Some a -> out_end d = Some b ->
  (a <= t <= b -> evaluate d i t = Ret (value_of d i t)) /\ (~ a <= t <= b -> evaluate d i t = Exc).
Proof.
  intros d i t a b S E. destruct d as [| g d']; [discriminate |]. unfold value_of, evaluate. rewrite E. cbn in S. injection S as S. split; intro H.
  - rewrite (ltb_f t (g_t0 g)) by lra. rewrite (ltb_f b t) by lra. reflexivity.
  - destruct (Rlt_le_dec t (g_t0 g)); [rewrite (ltb_t t (g_t0 g)) by assumption; reflexivity |].
    rewrite (ltb_t b t) by lra. rewrite orb_true_r. reflexivity.
Qed.

Lemma interpolates_time : forall E f good k t x t' x', interpolates E f good k t x t' x' -> t <= t'.
Proof. intros E f good k t x t' x' I. induction I; lra. Qed.
Lemma interpolates_zero : forall E f good k t x t' x', interpolates E f good k t x t' x' -> t = t' -> x' = x.
Proof.
  intros E f good k t x t' x' I. destruct I as [t x | t x h x1 e t' x' d0 d1 KS H G0 D0 D1 HI I]; intro T; [reflexivity |].
  assert (Q := interpolates_time _ _ _ _ _ _ _ _ I). lra.
Qed.
Lemma interpolates_ends : forall E f good k t x t' x', interpolates E f good k t x t' x' -> t < t' ->
  forall i, E i t = Some (nth i x 0) /\ E i t' = Some (nth i x' 0).
Proof.
  intros E f good k t x t' x' I. induction I as [t x | t x h x1 e t' x' d0 d1 KS H G0 D0 D1 HI I IH]; intros T i; [lra |].
  destruct (HI i) as [c2 [c3 [C1 [C2 _]]]]. split.
  - replace t with (t + 0) at 1 by ring. rewrite C1 by lra. f_equal. ring.
  - assert (T' := interpolates_time _ _ _ _ _ _ _ _ I).
    destruct (Rle_lt_or_eq_dec (t + h) t' T') as [L | L]; [apply (IH L i) |].
    rewrite (interpolates_zero _ _ _ _ _ _ _ _ I L). rewrite <- L. rewrite C1 by lra. f_equal. exact C2.
Qed.
