(** Problems whose calls have all returned, and when calls return. *)
From Coq Require Import Reals List Bool Lra Lia PeanoNat.
From Verif Require Import Integ_Model Integ_Spec Integ_Proofs Integ_Proofs2 Integ_Proofs3 Integ_Proofs4 Integ_Proofs5.
Import ListNotations.
Local Open Scope R_scope.

(** Settings with a target accuracy: the accuracy in use is capped at 1/10. *)
Definition tuned (m T r : R) (c : settings) : Prop :=
  sensible m c /\ target c = Some T /\ 0 <= T /\ req_min c <= r /\ 0 <= r.

Lemma within_weaken : forall m acc r r' t h e, r <= r' -> within m acc r t h e -> within m acc r' t h e.
Proof.
  intros m acc r r' t h e L [H [E | [t' [B C]]]]; split; auto. right. exists t'. split; [exact B |].
  apply Rle_trans with (1 := C). apply Rmult_le_compat_l; [lra |]. unfold smallest_step. apply Rle_max_compat_l. exact L.
Qed.
Lemma path_weaken : forall f (g1 g2 : R -> R -> R -> Prop) k t x t' x', (forall t h e, g1 t h e -> g2 t h e) ->
  path f g1 k t x t' x' -> path f g2 k t x t' x'.
Proof. intros f g1 g2 k t x t' x' I P. induction P; [apply path_here | eapply path_step; eauto]. Qed.

(** The state of a problem whose calls have returned. *)
Definition good_state (f : ode) (m T r : R) (p : ivp) : Prop :=
  tuned m T r (sets (integ p)) /\ dense (integ p) = None /\ param (integ p) = f_k (current p) /\
  f_x0 (current p) <> [] /\
  (initialized (integ p) = false /\ time (integ p) = f_t0 (current p) /\ xc (integ p) = Some (f_x0 (current p)) /\ ideal (integ p) = None
   \/ well m (Rmin T (1 / 10)) (integ p) /\
      exists x, xc (integ p) = Some x /\ length x = length (f_x0 (current p)) /\
        path f (within m (Rmin T (1 / 10)) r) (f_k (current p)) (f_t0 (current p)) (f_x0 (current p)) (time (integ p)) x).

Lemma initialize_well : forall s s' m T r, tuned m T r (sets s) -> ideal s = None -> aligned s ->
  initialize s = (Ret tt, s') ->
  well m (Rmin T (1 / 10)) s' /\ time s' = time s /\ xc s' = xc s /\ param s' = param s /\ dense s' = dense s /\
  req_min (sets s') = req_min (sets s) /\ tuned m T r (sets s') /\ ideal s' = None /\ first_attempt s' = req_initial (sets s) /\
  throws (sets s') = throws (sets s).
Proof.
  intros s s' m T r [[[M M0] [h0 [H0 P0]]] [TT [T0 [RM R0]]]] I AL E. unfold initialize, init_settings in E.
  destruct (optlt _ _); [discriminate |]. destruct (optlt _ _); [discriminate |]. destruct (optlt _ _); [discriminate |].
  rewrite H0, TT in E. injection E as <-. unfold first_attempt. cbn [time xc param dense sets ideal req_min req_initial max_step accuracy target throws].
  rewrite I. cbn. repeat split; auto.
  - cbn. f_equal. unfold Rmin, ltb. destruct (Rlt_dec (1 / 10) T), (Rle_dec T (1 / 10)); lra.
  - apply Rmin_glb; lra.
  - intros a A. unfold first_attempt in A. cbn in A. injection A as <-. exact P0.
  - exists h0. auto.
Qed.

Lemma sanitize_facts : forall p tf w u, sanitize p tf w = Some u ->
  u = Full (or_default (v_t0 w) (f_t0 (defaults p))) (or_default (v_x0 w) (f_x0 (defaults p))) (or_default (v_k w) (f_k (defaults p))) /\
  f_t0 u <= tf /\ length (f_x0 u) = length (f_x0 (defaults p)) /\ length (f_k u) = length (f_k (defaults p)).
Proof.
  intros p tf w u SV. unfold sanitize in SV.
  destruct (ltb tf (or_default (v_t0 w) (f_t0 (defaults p)))) eqn:L; [discriminate |]. apply ltb_no in L.
  destruct (Nat.eqb (length (or_default (v_x0 w) (f_x0 (defaults p)))) (length (f_x0 (defaults p)))) eqn:L1; [| discriminate]. apply Nat.eqb_eq in L1.
  destruct (Nat.eqb (length (or_default (v_k w) (f_k (defaults p)))) (length (f_k (defaults p)))) eqn:L2; [| discriminate]. apply Nat.eqb_eq in L2.
  cbn [negb] in SV. injection SV as <-. cbn. auto.
Qed.

Lemma same_values_iff : forall a b, same_values a b = true <-> a = b.
Proof.
  intros a b. unfold same_values. split.
  - intro B. apply andb_true_iff in B. destruct B as [B1 B3]. apply andb_true_iff in B1. destruct B1 as [B1 B2]. apply eqb_iff in B1.
    destruct (vec_dec (f_x0 a) (f_x0 b)) as [B2' |]; [| discriminate].
    destruct (vec_dec (f_k a) (f_k b)) as [B3' |]; [| discriminate].
    destruct a, b. cbn in *. congruence.
  - intros ->. rewrite eqb_t by reflexivity. destruct (vec_dec (f_x0 b) (f_x0 b)); [| contradiction].
    destruct (vec_dec (f_k b) (f_k b)); [reflexivity | contradiction].
Qed.

(** The integrator a call of Solve starts from. *)
Definition solve_start (p : ivp) (tf : R) (u : full) : ivp :=
  if negb (same_values u (current p)) || ltb tf (time (integ p)) then reset_cached p u else p.

Lemma reset_good : forall f m T r p u, tuned m T r (sets (integ p)) -> f_x0 u <> [] -> good_state f m T r (reset_cached p u).
Proof.
  intros f m T r p u [[SM [h0 [H0 P0]]] [TT [T0 [RM R0]]]] X. repeat split; cbn; auto; try apply SM.
  exists h0; auto.
Qed.

Lemma start_good : forall f m T r p tf u, good_state f m T r p -> f_x0 u <> [] -> f_t0 u <= tf ->
  good_state f m T r (solve_start p tf u) /\ current (solve_start p tf u) = u /\ time (integ (solve_start p tf u)) <= tf /\
  defaults (solve_start p tf u) = defaults p.
Proof.
  intros f m T r p tf u G X L. unfold solve_start. destruct (negb (same_values u (current p)) || ltb tf (time (integ p))) eqn:B.
  - split; [apply reset_good; [apply G | exact X] |]. cbn. auto.
  - apply orb_false_iff in B. destruct B as [B B']. apply ltb_no in B'. apply negb_false_iff in B. apply same_values_iff in B.
    split; [exact G |]. auto.
Qed.

Lemma solve_unfold : forall n f p tf w u, sanitize p tf w = Some u ->
  solve n f p tf w =
    let p1 := solve_start p tf u in
    let '(r, s1) := if initialized (integ p1) then (Ret tt, integ p1) else initialize (integ p1) in
    match r with
    | Ret _ => match to_time n f s1 tf with
               | (Ret _, s2) => (Ret (xc s2), set_integ p1 s2)
               | (Exc, s2) => (Exc, set_integ p1 s2)
               | (More, s2) => (More, set_integ p1 s2) end
    | Exc => (Exc, set_integ p1 s1)
    | More => (More, set_integ p1 s1)
    end.
Proof. intros n f p tf w u H. unfold solve. rewrite H. reflexivity. Qed.

(** The initialized integrator a call of Solve steps with. *)
Lemma start_initialized : forall f m T r p tf u r0 s1, good_state f m T r p -> f_x0 u <> [] -> f_t0 u <= tf ->
  (if initialized (integ (solve_start p tf u)) then (Ret tt, integ (solve_start p tf u)) else initialize (integ (solve_start p tf u))) = (r0, s1) ->
  r0 = Ret tt ->
  well m (Rmin T (1 / 10)) s1 /\ tuned m T r (sets s1) /\ dense s1 = None /\ param s1 = f_k u /\ time s1 <= tf /\
  exists x, xc s1 = Some x /\ length x = length (f_x0 u) /\
    path f (within m (Rmin T (1 / 10)) r) (f_k u) (f_t0 u) (f_x0 u) (time s1) x.
Proof.
  intros f m T r p tf u r0 s1 G X L E R0. destruct (start_good f m T r p tf u G X L) as [G1 [C1 [T1 _]]].
  set (p1 := solve_start p tf u) in *. destruct G1 as [TU [D [P [XC CASES]]]]. rewrite C1 in *.
  destruct CASES as [[I [TM [XX ID]]] | [W [x [XX [LX PA]]]]].
  - rewrite I in E. subst r0.
    assert (AL : aligned (integ p1)) by (unfold aligned; rewrite D; trivial).
    destruct (initialize_well (integ p1) s1 m T r TU ID AL E) as [W [E1 [E2 [E3 [E4 [E5 [E6 _]]]]]]].
    split; [exact W |]. split; [exact E6 |]. split; [congruence |]. split; [congruence |]. split; [rewrite E1; exact T1 |].
    exists (f_x0 u). split; [congruence |]. split; [reflexivity |]. rewrite E1, TM. apply path_here.
  - rewrite (w_init _ _ _ W) in E. injection E as _ <-.
    split; [exact W |]. split; [exact TU |]. split; [exact D |]. split; [exact P |]. split; [exact T1 |].
    exists x. auto.
Qed.

Lemma solve_good : forall n f p tf w o p' m T r, keeps_dimension (length (f_x0 (defaults p))) f -> good_state f m T r p -> f_x0 (defaults p) <> [] ->
  solve n f p tf w = (Ret o, p') ->
  exists x u, o = Some x /\ sanitize p tf w = Some u /\ current p' = u /\ time (integ p') = tf /\ xc (integ p') = Some x /\
    length x = length (f_x0 u) /\ path f (within m (Rmin T (1 / 10)) r) (f_k u) (f_t0 u) (f_x0 u) tf x /\
    good_state f m T r p' /\ defaults p' = defaults p /\ well m (Rmin T (1 / 10)) (integ p').
Proof.
  intros n f p tf w o p' m T r K G XD H. destruct (sanitize p tf w) as [u |] eqn:SV; [| unfold solve in H; rewrite SV in H; discriminate].
  rewrite (solve_unfold n f p tf w u SV) in H. destruct (sanitize_facts p tf w u SV) as [_ [LT [LX _]]].
  assert (XU : f_x0 u <> []). { intro E. rewrite E in LX. destruct (f_x0 (defaults p)); [contradiction | discriminate]. }
  destruct (start_good f m T r p tf u G XU LT) as [_ [C1 [_ D1]]]. cbv zeta in H.
  assert (SI := start_initialized f m T r p tf u).
  destruct (if initialized (integ (solve_start p tf u)) then (Ret tt, integ (solve_start p tf u)) else initialize (integ (solve_start p tf u)))
    as [[[] | |] s1]; [| discriminate | discriminate].
  destruct (SI (Ret tt) s1 G XU LT eq_refl eq_refl) as [W [TU [D [P [TM [x [XX [LN PA]]]]]]]].
  destruct (to_time n f s1 tf) as [[[] | |] s2] eqn:TT; [| discriminate | discriminate].
  assert (XN : x <> []). { intros ->. destruct (f_x0 u); [contradiction | discriminate]. }
  destruct (to_time_path n f s1 s2 tf m (Rmin T (1 / 10)) x ltac:(rewrite LN, LX; exact K) W XX XN TM TT) as [x' [X' [L' [T' [W' [S' [P' PA']]]]]]].
  injection H as <- <-.
  assert (PF : path f (within m (Rmin T (1 / 10)) r) (f_k u) (f_t0 u) (f_x0 u) tf x').
  { apply (path_trans f _ _ _ _ (time s1) x); [exact PA |]. rewrite <- P.
    apply path_weaken with (2 := PA'). intros t h e. apply within_weaken. apply TU. }
  assert (DN : dense s2 = None).
  { assert (Q : (fun s => dense s = None) s2); [| exact Q].
    apply (to_time_inv (fun s => dense s = None) f m (Rmin T (1 / 10)) tf) with (n := n) (s := s1); auto; [| congruence].
    intros a b h e WA DA _ _ _ _ [s3 [nx [lim [ES [EB _]]]]].
    destruct (step_frame f a h (Some e) s3 (w_al _ _ _ WA) ES) as [c1 [_ [E3 _]]]. rewrite DA in E3. subst s3 b. destruct lim; reflexivity. }
  exists x', u. cbn [set_integ current integ defaults].
  split; [exact X' |]. split; [reflexivity |]. split; [exact C1 |]. split; [exact T' |]. split; [exact X' |].
  split; [congruence |]. split; [exact PF |]. split; [| auto].
  unfold good_state. cbn [set_integ current integ]. rewrite C1. split; [rewrite S'; exact TU |].
  split; [exact DN |]. split; [congruence |]. split; [exact XU |]. right. split; [exact W' |].
  exists x'. rewrite T'. split; [exact X' |]. split; [congruence | exact PF].
Qed.
