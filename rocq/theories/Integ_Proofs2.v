(** The loop of one error-controlled step and the loop over steps. *)
From Coq Require Import Reals List Bool Lra Lia PeanoNat.
From Verif Require Import Integ_Model Integ_Spec Integ_Proofs.
Import ListNotations.
Local Open Scope R_scope.

Definition final_seg (d : list seg) : option seg := last (map Some d) None.
Lemma final_seg_snoc : forall d g, final_seg (d ++ [g]) = Some g.
Proof. intros d g. unfold final_seg. rewrite map_app. cbn [map]. apply last_last. Qed.
Lemma final_seg_none : forall d, final_seg d = None -> d = [].
Proof.
  intros d H. destruct d as [| g d] using rev_ind; [reflexivity |]. rewrite final_seg_snoc in H. discriminate.
Qed.

(** The dense output, if there is one, ends at the time of the context. *)
Definition aligned (s : istate) : Prop :=
  match dense s with None => True | Some d => match final_seg d with None => True | Some g => g_t1 g = time s end end.

Definition mkseg (f : ode) (s s1 : istate) : seg :=
  Seg (time s) (time s1) (xc s) (xc s1) (deriv f (param s) (time s) (xc s)) (deriv f (param s) (time s1) (xc s1)).

Lemma eps_pos : 0 < eps_time.
Proof. unfold eps_time. apply Rinv_0_lt_compat. apply pow_lt. lra. Qed.

Lemma do_step_frame : forall f s h e s1, do_step f s h = (e, s1) ->
  time s1 = time s + h /\ param s1 = param s /\ ideal s1 = ideal s /\ initialized s1 = initialized s /\
  dense s1 = dense s /\ sets s1 = sets s /\ (e = None <-> xc s1 = None) /\
  s1 = set_context s (time s + h) (xc s1).
Proof.
  intros f s h e s1 H. unfold do_step in H. destruct (xc s) as [x |].
  - destruct (rk3 f (param s) (time s) h x) as [[x1 e1] |]; injection H as <- <-; cbn; repeat split; intro; discriminate.
  - injection H as <- <-. cbn. repeat split; intro; reflexivity.
Qed.

Lemma step_frame : forall f s h e s1, aligned s -> step f s h = (Ret e, s1) ->
  exists c1, do_step f s h = (e, c1) /\
    s1 = set_dense c1 (match dense s with Some d => Some (d ++ [mkseg f s c1]) | None => None end) /\
    (dense s <> None -> eps_time <= time s + h - time s).
Proof.
  intros f s h e s1 A H. unfold step in H. destruct (do_step f s h) as [e' c1] eqn:D. exists c1.
  destruct (do_step_frame f s h e' c1 D) as [T [P [I [N [DD [S [X C1]]]]]]].
  unfold aligned in A. destruct (dense s) as [d |] eqn:ED.
  - destruct (ltb (time c1 - time s) eps_time) eqn:L; [discriminate |]. apply ltb_no in L.
    fold (final_seg d) in H.
    assert (Hd : match final_seg d with
                 | Some g => if ltb (time s) (g_t1 g) && eqb (time s) (g_t0 g) then removelast d else d
                 | None => d end = d).
    { destruct (final_seg d) as [g |]; [| reflexivity]. rewrite (ltb_f (time s) (g_t1 g)) by lra. reflexivity. }
    rewrite Hd in H. unfold append_seg in H. fold (final_seg d) in H.
    destruct (final_seg d) as [g |] eqn:F.
    + cbn [g_t0 g_t1 g_x0 g_x1 g_d0 g_d1] in H. rewrite A in H.
      replace (time s - time s) with 0 in H by ring. rewrite Rabs_R0 in H.
      rewrite (ltb_t 0) in H.
      * injection H as <- <-. split; [reflexivity |]. split; [| intros _; rewrite <- T; exact L].
        f_equal. f_equal. f_equal. unfold mkseg. f_equal. f_equal; ring.
      * apply Rmult_lt_0_compat; [| exact eps_pos]. apply Rlt_le_trans with 1; [lra | apply Rmax_r].
    + injection H as <- <-. split; [reflexivity |]. split; [| intros _; rewrite <- T; exact L].
      apply final_seg_none in F. subst d. reflexivity.
  - injection H as <- <-. split; [reflexivity |]. split; [| intro C; contradiction].
    rewrite C1. unfold set_dense, set_context. cbn. rewrite ED. reflexivity.
Qed.

Lemma step_revert : forall f s h e s1, aligned s -> step f s h = (Ret e, s1) ->
  revert s s1 = s /\ aligned s1 /\ time s1 = time s + h /\ param s1 = param s /\ ideal s1 = ideal s /\
  initialized s1 = initialized s /\ sets s1 = sets s /\ (e = None <-> xc s1 = None).
Proof.
  intros f s h e s1 A H. destruct (step_frame f s h e s1 A H) as [c1 [D [E _]]].
  destruct (do_step_frame f s h e c1 D) as [T [P [I [N [DD [S [X C1]]]]]]].
  subst s1. split; [| split].
  - unfold revert, set_dense, set_context. cbn [time xc param ideal initialized dense sets].
    rewrite P, I, N, S. destruct s as [t x p i n d c]. cbn. f_equal.
    destruct d as [d |]; [| reflexivity]. rewrite removelast_last. reflexivity.
  - unfold aligned. cbn. destruct (dense s) as [d |]; [| trivial]. rewrite final_seg_snoc. reflexivity.
  - cbn. repeat split; try assumption; apply X.
Qed.

(** The attempted size. *)
Lemma attempt_bounds : forall s hm a lim h m, max_step (sets s) = Some m -> 0 <= m -> 0 <= hm -> 0 <= a ->
  attempt_size s hm a = (lim, h) -> 0 <= h <= m /\ h <= hm /\ h <= 1001 / 1000 * a /\
  (h = hm \/ h = m \/ h = a /\ 1001 / 1000 * a <= hm).
Proof.
  intros s hm a lim h m M M0 H0 A0 H. unfold attempt_size, cap in H. rewrite M in H. injection H as _ <-.
  destruct (ltb hm (95 / 100 * a)) eqn:L1; [| destruct (ltb hm (1001 / 1000 * a)) eqn:L2].
  - apply ltb_iff in L1. minmax; repeat split; try lra; auto.
  - apply ltb_iff in L2. minmax; repeat split; try lra; auto.
  - apply ltb_no in L2. minmax; repeat split; try lra; auto.
Qed.

(** The loop of one step from the same state: the last round and what led to it. *)
Definition low (s : istate) (a : R) : Prop :=
  exists t', time s <= t' <= time s + or_default (max_step (sets s)) 0 /\ a <= smallest_step (req_min (sets s)) t'.

Lemma adjusted_nonneg : forall s e h at_min b next at', 0 <= h ->
  (forall m, max_step (sets s) = Some m -> 0 <= m) ->
  calc_adjusted s e h at_min = (Some (b, next), at') -> 0 <= next.
Proof.
  intros s e h at_min b next at' H M E. unfold calc_adjusted in E. destruct e as [e |]; [| injection E as _ <- _; lra].
  match type of E with (if ?c then _ else _) = _ => destruct c end; [injection E as _ <- _; exact H |].
  match type of E with (if ?c then _ else _) = _ => destruct c end; [| discriminate].
  injection E as _ <- _. apply Rle_trans with (2 := Rmax_r _ _). rewrite working_min_smallest. left. apply smallest_pos.
Qed.

Lemma step_once_ret : forall n f s hm a at0 full s' m, aligned s -> max_step (sets s) = Some m -> 0 <= m ->
  0 <= accuracy_in_use s -> 0 <= hm -> 0 <= a -> (at0 = true -> low s a) ->
  step_once n f s hm a at0 = (Ret full, s') ->
  exists a' at' lim h e s1 next at2,
    0 <= a' /\ (at' = true -> low s a') /\
    attempt_size s hm a' = (lim, h) /\ step f s h = (Ret e, s1) /\
    calc_adjusted s1 e h at' = (Some (true, next), at2) /\
    s' = (if lim then s1 else set_ideal s1 next) /\ full = eqb h hm.
Proof.
  induction n as [| n IH]; intros f s hm a at0 full s' m AL M M0 AC H0 A0 LO H; cbn [step_once] in H; [discriminate |].
  destruct (attempt_size s hm a) as [lim h] eqn:EA.
  destruct (step f s h) as [[e | |] s1] eqn:ES; [| discriminate | discriminate].
  destruct (step_revert f s h e s1 AL ES) as [RV [AL1 [T1 [P1 [I1 [N1 [S1 X1]]]]]]].
  destruct (attempt_bounds s hm a lim h m M M0 H0 A0 EA) as [[HB0 HBm] [HBh [HBa _]]].
  destruct (calc_adjusted s1 e h at0) as [[[b next] |] at2] eqn:EC; [| discriminate].
  destruct b.
  - injection H as <- <-. exists a, at0, lim, h, e, s1, next, at2. repeat split; assumption.
  - rewrite RV in H.
    assert (NN : 0 <= next).
    { apply (adjusted_nonneg s1 e h at0 false next at2 HB0); [| exact EC]. intros m' M'. rewrite S1 in M'. congruence. }
    apply (IH f s hm next at2 full s' m AL M M0 AC H0 NN); [| exact H].
    intro AT. subst at2.
    unfold calc_adjusted in EC. destruct e as [e |].
    + set (n0 := if eqb e 0 then 5 * h else 9 / 10 * h * pow3 (accuracy_in_use s1 / e)) in *.
      cbv zeta in EC.
      match type of EC with (if ?c then _ else _) = _ => destruct c eqn:B1 end; [discriminate |].
      match type of EC with (if ?c then _ else _) = _ => destruct c eqn:B2 end; [| discriminate].
      injection EC as EL EN EAT.
      match type of EAT with (if eqb ?u ?v then _ else _) = _ => destruct (eqb u v) eqn:B3 end.
      * apply eqb_iff in B3. exists (time s1). split.
        -- rewrite T1, M. cbn. lra.
        -- rewrite <- EN, B3. unfold working_min, smallest_step. rewrite S1. apply Rle_refl.
      * (* the flag was set before and stays set: then the step would have been accepted *)
        destruct (ltb h n0) eqn:L0; [discriminate |]. apply ltb_no in L0.
        rewrite EAT in B1. rewrite andb_true_r in B1. apply ltb_no in B1.
        rewrite (ltb_f n0 h B1) in EN. apply leb_no in EL.
        exfalso. apply (Rlt_irrefl h). apply Rle_lt_trans with (2 := EL).
        apply Rle_trans with (2 := Rmax_l _ _).
        rewrite (ltb_f n0 h B1).
        apply cap_ge; [apply Rle_trans with (2 := Rmax_l _ _); apply Rmin_glb; lra |].
        intros m' M'. rewrite S1 in M'. congruence.
    + injection EC as EN EAT. destruct (LO EAT) as [t' [T' L']]. exists t'. split; [exact T' |]. subst next. lra.
Qed.

(** An accepted step has a proper error estimate, and meets the accuracy unless it is down at the
    smallest step. *)
Lemma accepted_error : forall s e h at_min next at2,
  0 <= accuracy_in_use s -> (forall m, max_step (sets s) = Some m -> h <= m) -> 0 <= h ->
  calc_adjusted s e h at_min = (Some (true, next), at2) ->
  exists e0, e = Some e0 /\ (e0 <= accuracy_in_use s \/ at_min = true \/ h <= working_min s) /\ h <= next.
Proof.
  intros s e h at_min next at2 A M H E. destruct e as [e |]; [| discriminate]. exists e. split; [reflexivity |].
  destruct (Rle_lt_dec e (accuracy_in_use s)) as [C | C].
  - split; [left; exact C |].
    unfold calc_adjusted in E.
    match type of E with (if ?c then _ else _) = _ => destruct c end; [injection E as <- _; lra |].
    match type of E with (if ?c then _ else _) = _ => destruct c end; [| discriminate].
    cbv zeta in E. injection E as E1 <- _. apply leb_iff in E1. exact E1.
  - destruct (Rle_lt_or_eq_dec 0 h H) as [P | P].
    + assert (SH := adjusted_shrinks s e h at_min P A C M). destruct at_min.
      * rewrite SH in E. injection E as <- _. split; [right; left; reflexivity | lra].
      * destruct SH as [n [N SH]]. rewrite SH in E.
        destruct (ltb n (working_min s) && throws (sets s)); [discriminate |].
        injection E as E1 <- _. apply leb_iff in E1. split; [| exact E1]. right. right.
        unfold Rmax in E1. destruct (Rle_dec n (working_min s)); lra.
    + subst h. split; [right; right; rewrite working_min_smallest; left; apply smallest_pos |].
      apply (adjusted_nonneg s (Some e) 0 at_min true next at2); [lra | intros m' M'; specialize (M m' M'); lra | exact E].
Qed.
