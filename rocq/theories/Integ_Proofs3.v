(** From the step loop to paths of Runge-Kutta steps. *)
From Coq Require Import Reals List Bool Lra Lia PeanoNat.
From Verif Require Import Integ_Model Integ_Spec Integ_Proofs Integ_Proofs2.
Import ListNotations.
Local Open Scope R_scope.

(** An initialized integrator with sensible settings. *)
Record well (m acc : R) (s : istate) : Prop := {
  w_al : aligned s; w_max : max_step (sets s) = Some m; w_m0 : 0 <= m;
  w_acc : accuracy (sets s) = Some acc; w_acc0 : 0 <= acc; w_init : initialized s = true;
  w_first : forall a, first_attempt s = Some a -> 0 <= a }.

Definition accepted (f : ode) (s s' : istate) (h e : R) : Prop :=
  exists s1 next (lim : bool), step f s h = (Ret (Some e), s1) /\ s' = (if lim then s1 else set_ideal s1 next) /\ 0 <= next /\ h <= next.

Lemma istate_eta : forall s, IState (time s) (xc s) (param s) (ideal s) (initialized s) (dense s) (sets s) = s.
Proof. intros []; reflexivity. Qed.
Lemma set_time_id : forall s t, time s = t -> set_time s t = s.
Proof. intros s t <-. apply istate_eta. Qed.

Lemma accepted_frame : forall f s s' h e, aligned s -> accepted f s s' h e ->
  aligned s' /\ time s' = time s + h /\ param s' = param s /\ initialized s' = initialized s /\ sets s' = sets s /\
  (exists x, xc s' = Some x) /\ (ideal s' = ideal s \/ exists n, ideal s' = Some n /\ 0 <= n /\ h <= n).
Proof.
  intros f s s' h e A [s1 [next [lim [S [E [N1 N2]]]]]].
  destruct (step_revert f s h (Some e) s1 A S) as [_ [AL [T [P [I [N [SS X]]]]]]].
  assert (X' : exists x, xc s1 = Some x).
  { destruct (xc s1) as [x |] eqn:EX; [exists x; reflexivity |]. destruct X as [_ X]. specialize (X eq_refl). discriminate. }
  subst s'. destruct lim; cbn; repeat split; auto. right. exists next. auto.
Qed.

Lemma accepted_well : forall f s s' h e m acc, well m acc s -> accepted f s s' h e -> well m acc s'.
Proof.
  intros f s s' h e m acc W A. destruct (accepted_frame f s s' h e (w_al _ _ _ W) A) as [AL [T [P [N [S [_ I]]]]]].
  destruct W. constructor; rewrite ? S; auto; try congruence.
  intros a Ha. unfold first_attempt in Ha. destruct I as [I | [n [I [I0 _]]]]; rewrite I in Ha.
  - rewrite S in Ha. apply w_first0. exact Ha.
  - injection Ha as <-. exact I0.
Qed.

(** One call of the stepper. *)
Lemma no_further_ret : forall n f s pub upd bnd r t m acc r' s', well m acc s -> xc s <> Some [] ->
  step_target s pub upd bnd = (r, Some t) ->
  no_further n f s pub upd bnd = (Ret r', s') ->
  exists h e, accepted f s s' h e /\ 0 <= h <= m /\ time s' <= t /\
    within m acc (req_min (sets s)) (time s) h e /\
    (r' = r /\ time s' = t \/ r' = TimeHasAdvanced /\ time s' < t).
Proof.
  intros n f s pub upd bnd r t m acc r' s' W X T H. destruct W. unfold no_further in H. rewrite w_init0 in H. cbn [negb] in H.
  destruct (in_past s pub || in_past s upd || in_past s bnd); [discriminate |]. rewrite T in H.
  assert (XE : forall A (a b : A), match xc s with Some [] => a | _ => b end = b).
  { intros A a b. destruct (xc s) as [[| y l] |]; [contradiction | reflexivity | reflexivity]. }
  rewrite XE in H. destruct (ltb (t - time s) 0) eqn:LT; [discriminate |]. apply ltb_no in LT.
  destruct (first_attempt s) as [a |] eqn:FA; [| discriminate].
  destruct (step_once n f s (t - time s) a false) as [[full | |] s1] eqn:SO; [| discriminate | discriminate].
  assert (AC : accuracy_in_use s = acc) by (unfold accuracy_in_use; rewrite w_acc1; reflexivity).
  destruct (step_once_ret n f s (t - time s) a false full s1 m w_al0 w_max0 w_m1) as
    [a' [at' [lim [h [e [s2 [next [at2 [A' [LO [EA [ES [EC [E1 EF]]]]]]]]]]]]]]; auto; try lra; try (intro; discriminate).
  destruct (attempt_bounds s (t - time s) a' lim h m w_max0 w_m1 LT A' EA) as [[HB0 HBm] [HBh [HBa _]]].
  destruct (step_revert f s h e s2 w_al0 ES) as [_ [AL2 [T2 [P2 [I2 [N2 [S2 X2]]]]]]].
  assert (AC2 : accuracy_in_use s2 = acc) by (unfold accuracy_in_use; rewrite S2, w_acc1; reflexivity).
  destruct (accepted_error s2 e h at' next at2) as [e0 [EE [G GN]]]; auto; try lra.
  { intros m' M'. rewrite S2 in M'. congruence. }
  subst e. exists h, e0.
  assert (NN : 0 <= next) by lra.
  assert (ACC : accepted f s s1 h e0) by (exists s2, next, lim; auto).
  assert (TS1 : time s1 = time s + h) by (subst s1; destruct lim; exact T2).
  assert (WI : within m acc (req_min (sets s)) (time s) h e0).
  { split; [exact HBm |]. rewrite AC2 in G. destruct G as [G | [G | G]]; [left; exact G | |]; right.
    - destruct (LO G) as [t' [B1 B2]]. rewrite w_max0 in B1. cbn in B1. exists t'. split; [exact B1 | lra].
    - exists (time s2). split; [rewrite T2; lra |].
      assert (P := smallest_pos (req_min (sets s)) (time s2)).
      assert (G' : h <= smallest_step (req_min (sets s)) (time s2)) by (rewrite <- S2; exact G). lra. }
  destruct (full || leb t (time s1)) eqn:FU.
  - assert (TT : time s1 = t).
    { apply orb_true_iff in FU. destruct FU as [FU | FU].
      - rewrite EF in FU. apply eqb_iff in FU. lra.
      - apply leb_iff in FU. lra. }
    injection H as <- <-. rewrite (set_time_id s1 t TT).
    repeat split; auto; try lra; try apply WI.
  - apply orb_false_iff in FU. destruct FU as [_ FU]. apply leb_no in FU. injection H as <- <-.
    repeat split; auto; try lra; try apply WI.
Qed.

Lemma boundary_target : forall s b m, max_step (sets s) = Some m -> b <= time s + m ->
  step_target s None None (Some b) = (ReachedBoundaryTime, Some b).
Proof.
  intros s b m M B. unfold step_target. cbn [inf_lt]. rewrite M. rewrite (ltb_f (time s + m) b) by exact B.
  destruct (xc s) as [[| y l] |]; reflexivity.
Qed.

(** The loop over steps keeps whatever single accepted steps keep, and stops exactly at tf. *)
Lemma to_time_inv : forall (I : istate -> Prop) f m acc tf,
  (forall s s' h e, well m acc s -> I s -> xc s <> Some [] -> time s' <= tf -> 0 <= h ->
     within m acc (req_min (sets s)) (time s) h e -> accepted f s s' h e -> I s') ->
  forall n s s', well m acc s -> I s -> xc s <> Some [] -> time s <= tf -> to_time n f s tf = (Ret tt, s') ->
  well m acc s' /\ I s' /\ time s' = tf /\ xc s' <> None /\ sets s' = sets s /\ param s' = param s.
Proof.
  intros I f m acc tf IH n. induction n as [| n IHn]; intros s s' W IS X T H; cbn [to_time] in H; [discriminate |].
  rewrite (w_max _ _ _ W) in H. set (b := Rmin tf (time s + m)) in *.
  assert (B1 : b <= tf) by apply Rmin_l. assert (B2 : b <= time s + m) by apply Rmin_r.
  destruct (no_further n f s None None (Some b)) as [[r | |] s1] eqn:NF; [| discriminate | discriminate].
  destruct (no_further_ret n f s None None (Some b) _ b m acc r s1 W X (boundary_target s b m (w_max _ _ _ W) B2) NF)
    as [h [e [A [H0 [T1 [WI RT]]]]]].
  assert (W1 := accepted_well f s s1 h e m acc W A).
  destruct (accepted_frame f s s1 h e (w_al _ _ _ W) A) as [AL [TT [P [N [S [[x EX] _]]]]]].
  assert (I1 : I s1) by (apply (IH s s1 h e W IS X); auto; lra).
  assert (X1 : xc s1 <> Some [] \/ xc s1 = Some []) by (destruct (xc s1) as [[| y l] |]; [right; reflexivity | left; discriminate | left; discriminate]).
  destruct (ltb (time s1) tf) eqn:L.
  - apply ltb_iff in L.
    destruct X1 as [X1 | X1].
    + destruct (IHn s1 s' W1 I1 X1 (Rlt_le _ _ L) H) as [W' [I' [T' [X' [S' P']]]]].
      refine (conj W' (conj I' (conj T' (conj X' (conj _ _))))); congruence.
    + (* steps keep the dimension: excluded by the caller through X; the stepper then jumps *)
      exfalso. apply X. clear - A X1 W EX. destruct A as [s2 [nx [lim [ES [E2 _]]]]].
      destruct (step_frame f s h (Some e) s2 (w_al _ _ _ W) ES) as [c1 [D [E _]]].
      assert (XC : xc c1 = Some []). { subst s2 s1. destruct lim; exact X1. }
      unfold do_step in D. destruct (xc s) as [x0 |]; [| injection D as D1 D2; discriminate].
      destruct (rk3 f (param s) (time s) h x0) as [[x1 e1] |] eqn:RK; [| discriminate].
      injection D as _ <-. cbn in XC. injection XC as ->.
      unfold rk3 in RK. destruct (f (param s) (time s) x0); [| discriminate].
      match type of RK with match ?u with Some _ => _ | None => _ end = _ => destruct u end; [| discriminate].
      match type of RK with match ?u with Some _ => _ | None => _ end = _ => destruct u end; [| discriminate].
      injection RK as RK _. apply (f_equal (@length R)) in RK. rewrite ? axpy_length in RK.
      destruct x0; [reflexivity | discriminate].
  - apply ltb_no in L. injection H as <-. refine (conj W1 (conj I1 (conj _ (conj _ (conj S P))))); [lra | congruence].
Qed.

Lemma path_snoc : forall f good k t x t' x' h x1 e, path f good k t x t' x' ->
  kutta_step f k t' h x' x1 e -> 0 <= h -> good t' h e -> path f good k t x (t' + h) x1.
Proof.
  intros f good k t x t' x' h x1 e P K H G. induction P as [t x | t x h' x1' e' t' x' K' H' G' P IH].
  - apply (path_step f good k t x h x1 e); auto. apply path_here.
  - apply (path_step f good k t x h' x1' e'); auto.
Qed.
Lemma path_trans : forall f good k t x t' x' t'' x'', path f good k t x t' x' -> path f good k t' x' t'' x'' ->
  path f good k t x t'' x''.
Proof.
  intros f good k t x t' x' t'' x'' P Q. induction P as [t x | t x h' x1' e' t' x' K' H' G' P IH]; [exact Q |].
  apply (path_step f good k t x h' x1' e'); auto.
Qed.

Lemma accepted_kutta : forall f s s' h e x, keeps_dimension (length x) f -> aligned s -> xc s = Some x -> accepted f s s' h e ->
  exists x1, xc s' = Some x1 /\ kutta_step f (param s) (time s) h x x1 e /\ length x1 = length x.
Proof.
  intros f s s' h e x K AL X [s1 [next [lim [S [E _]]]]].
  destruct (step_frame f s h (Some e) s1 AL S) as [c1 [D [E1 _]]].
  unfold do_step in D. rewrite X in D.
  destruct (rk3 f (param s) (time s) h x) as [[x1 e1] |] eqn:RK; [| discriminate].
  injection D as E2 <-. exists x1. subst s1 s' e. split; [destruct lim; reflexivity |].
  apply (rk3_kutta f _ _ _ _ _ _ K RK).
Qed.

Lemma to_time_path : forall n f s s' tf m acc x, keeps_dimension (length x) f -> well m acc s -> xc s = Some x -> x <> [] -> time s <= tf ->
  to_time n f s tf = (Ret tt, s') ->
  exists x', xc s' = Some x' /\ length x' = length x /\ time s' = tf /\ well m acc s' /\ sets s' = sets s /\ param s' = param s /\
    path f (within m acc (req_min (sets s))) (param s) (time s) x tf x'.
Proof.
  intros n f s s' tf m acc x K W X XN T H.
  pose (I := fun u : istate => param u = param s /\ sets u = sets s /\
     exists y, xc u = Some y /\ length y = length x /\ path f (within m acc (req_min (sets s))) (param s) (time s) x (time u) y).
  destruct (to_time_inv I f m acc tf) with (n := n) (s := s) (s' := s') as [W' [[IP [IS [y [Y [LY P]]]]] [TF [_ [S P']]]]]; auto.
  - intros u u' h e WU [IP [IS [y [Y [LY P]]]]] XU TU H0 WI A.
    destruct (accepted_frame f u u' h e (w_al _ _ _ WU) A) as [AL [TT [PP [N [SS _]]]]].
    destruct (accepted_kutta f u u' h e y ltac:(rewrite LY; exact K) (w_al _ _ _ WU) Y A) as [y1 [Y1 [KS L1]]].
    split; [congruence |]. split; [congruence |]. exists y1. split; [exact Y1 |]. split; [congruence |]. rewrite TT. rewrite IP in KS. rewrite IS in WI.
    apply (path_snoc f _ _ _ _ (time u) y h y1 e); auto.
  - split; [reflexivity |]. split; [reflexivity |]. exists x. split; [exact X |]. split; [reflexivity |]. apply path_here.
  - rewrite X. congruence.
  - exists y. rewrite TF in P. auto 8.
Qed.
