(** Dense output. *)
From Coq Require Import Reals List Bool Lra Lia PeanoNat.
From Verif Require Import Integ_Model Integ_Spec Integ_Proofs Integ_Proofs2 Integ_Proofs3 Integ_Proofs4 Integ_Proofs5 Integ_Proofs6.
Import ListNotations.
Local Open Scope R_scope.

(** The segments recorded along a path. *)
Inductive trace (f : ode) (good : R -> R -> R -> Prop) (k : vec) : R -> vec -> list seg -> R -> vec -> Prop :=
| trace_nil : forall t x, trace f good k t x [] t x
| trace_cons : forall t x h x1 e d t' x',
    kutta_step f k t h x x1 e -> 0 < h -> good t h e -> trace f good k (t + h) x1 d t' x' ->
    trace f good k t x (Seg t (t + h) (Some x) (Some x1) (f k t x) (f k (t + h) x1) :: d) t' x'.

Lemma trace_snoc : forall f good k t x d t' x' h x1 e, trace f good k t x d t' x' ->
  kutta_step f k t' h x' x1 e -> 0 < h -> good t' h e ->
  trace f good k t x (d ++ [Seg t' (t' + h) (Some x') (Some x1) (f k t' x') (f k (t' + h) x1)]) (t' + h) x1.
Proof.
  intros f good k t x d t' x' h x1 e T K H G. induction T as [t x | t x h' x1' e' d t' x' K' H' G' T IH].
  - cbn. apply (trace_cons f good k t x h x1 e); auto. apply trace_nil.
  - cbn. apply (trace_cons f good k t x h' x1' e'); auto.
Qed.
Lemma trace_path : forall f good k t x d t' x', trace f good k t x d t' x' -> path f good k t x t' x'.
Proof. intros. induction H; [apply path_here |]. apply (path_step f good k t x h x1 e); auto; lra. Qed.
Lemma trace_time : forall f good k t x d t' x', trace f good k t x d t' x' -> t <= t' /\ (d <> [] -> t < t').
Proof. intros. induction H; [split; [lra | contradiction] |]. split; [lra | intros _; lra]. Qed.
Lemma trace_start : forall f good k t x g d t' x', trace f good k t x (g :: d) t' x' -> g_t0 g = t.
Proof. intros f good k t x g d t' x' H. inversion H; subst. reflexivity. Qed.
Lemma trace_end : forall f good k t x d t' x', trace f good k t x d t' x' -> d <> [] -> out_end d = Some t'.
Proof.
  intros f good k t x d t' x' H. induction H as [t x | t x h x1 e d t' x' K H0 G T IH]; intro N; [contradiction |].
  unfold out_end in *. fold (final_seg d) in IH. destruct d as [| g d].
  - inversion T; subst. reflexivity.
  - specialize (IH ltac:(discriminate)). cbn [map last] in *. exact IH.
Qed.
Lemma trace_weaken : forall f (g1 g2 : R -> R -> R -> Prop) k t x d t' x', (forall t h e, g1 t h e -> g2 t h e) ->
  trace f g1 k t x d t' x' -> trace f g2 k t x d t' x'.
Proof. intros f g1 g2 k t x d t' x' I P. induction P; [apply trace_nil | eapply trace_cons; eauto]. Qed.

Lemma accepted_trace : forall f good s s' h e t x d y, keeps_dimension (length y) f -> aligned s -> accepted f s s' h e ->
  dense s = Some d -> xc s = Some y -> trace f good (param s) t x d (time s) y -> 0 <= h -> good (time s) h e ->
  exists d' y', dense s' = Some d' /\ xc s' = Some y' /\ length y' = length y /\ d' <> [] /\
    trace f good (param s) t x d' (time s') y'.
Proof.
  intros f good s s' h e t x d y K AL A D X T H0 G.
  destruct (accepted_kutta f s s' h e y K AL X A) as [y1 [Y1 [KS L1]]].
  destruct (accepted_frame f s s' h e AL A) as [_ [TT _]].
  destruct A as [s1 [next [lim [S [E _]]]]].
  destruct (step_frame f s h (Some e) s1 AL S) as [c1 [DS [E1 EP]]]. rewrite D in E1.
  destruct (do_step_frame f s h (Some e) c1 DS) as [T1 [P1 _]].
  assert (X1 : xc c1 = Some y1). { rewrite <- Y1. subst s' s1. destruct lim; reflexivity. }
  exists (d ++ [mkseg f s c1]), y1.
  split; [subst s' s1; destruct lim; reflexivity |]. split; [exact Y1 |]. split; [exact L1 |].
  split; [intro C; apply app_eq_nil in C; destruct C; discriminate |].
  rewrite TT. unfold mkseg. rewrite X, X1, T1. cbn [deriv].
  apply (trace_snoc f good (param s) t x d (time s) y h y1 e); auto.
  assert (P := eps_pos). assert (Q := EP ltac:(rewrite D; discriminate)). lra.
Qed.

Definition forget (s : istate) : istate := set_dense s None.

Lemma step_forget : forall f s h e s1, aligned s -> step f s h = (Ret e, s1) -> step f (forget s) h = (Ret e, forget s1).
Proof.
  intros f s h e s1 AL H. destruct (step_frame f s h e s1 AL H) as [c1 [D [E _]]].
  unfold step. assert (DF : do_step f (forget s) h = (e, forget c1)).
  { unfold do_step in *. cbn [forget set_dense xc param time] in *. destruct (xc s) as [x |].
    - destruct (rk3 f (param s) (time s) h x) as [[x1 e1] |]; injection D as <- <-; reflexivity.
    - injection D as <- <-. reflexivity. }
  rewrite DF. cbn. subst s1. reflexivity.
Qed.

Lemma step_once_forget : forall n f s hm a at0 b s', aligned s -> step_once n f s hm a at0 = (Ret b, s') ->
  step_once n f (forget s) hm a at0 = (Ret b, forget s').
Proof.
  induction n as [| n IH]; intros f s hm a at0 b s' AL H; cbn [step_once] in *; [discriminate |].
  change (attempt_size (forget s) hm a) with (attempt_size s hm a). destruct (attempt_size s hm a) as [lim h].
  destruct (step f s h) as [[e | |] s1] eqn:S; [| discriminate | discriminate].
  rewrite (step_forget f s h e s1 AL S).
  destruct (step_revert f s h e s1 AL S) as [RV _].
  change (calc_adjusted (forget s1) e h at0) with (calc_adjusted s1 e h at0).
  destruct (calc_adjusted s1 e h at0) as [[[[] next] |] at1]; [| | discriminate].
  - injection H as <- <-. destruct lim; reflexivity.
  - rewrite RV in H. specialize (IH f s hm next at1 b s' AL H). rewrite <- IH. f_equal.
    rewrite <- RV. unfold revert, forget, set_dense, set_context. cbn. reflexivity.
Qed.

Lemma no_further_forget : forall n f s pub upd bnd r s', aligned s -> no_further n f s pub upd bnd = (Ret r, s') ->
  no_further n f (forget s) pub upd bnd = (Ret r, forget s').
Proof.
  intros n f s pub upd bnd r s' AL H. unfold no_further in *. cbn [forget set_dense initialized xc].
  destruct (negb (initialized s)); [discriminate |].
  change (in_past (forget s)) with (in_past s). destruct (in_past s pub || in_past s upd || in_past s bnd); [discriminate |].
  change (step_target (forget s) pub upd bnd) with (step_target s pub upd bnd).
  destruct (step_target s pub upd bnd) as [r1 [t |]]; [| discriminate].
  change (first_attempt (forget s)) with (first_attempt s). change (time (forget s)) with (time s).
  assert (G : (if ltb (t - time s) 0 then (Exc, s) else match first_attempt s with
     | Some a => match step_once n f s (t - time s) a false with
        | (Ret full, s1) => if full || leb t (time s1) then (Ret r1, set_time s1 t) else (Ret TimeHasAdvanced, s1)
        | (Exc, s1) => (Exc, s1) | (More, s1) => (More, s1) end | None => (Exc, s) end) = (Ret r, s') ->
     (if ltb (t - time s) 0 then (Exc, forget s) else match first_attempt s with
     | Some a => match step_once n f (forget s) (t - time s) a false with
        | (Ret full, s1) => if full || leb t (time s1) then (Ret r1, set_time s1 t) else (Ret TimeHasAdvanced, s1)
        | (Exc, s1) => (Exc, s1) | (More, s1) => (More, s1) end | None => (Exc, forget s) end) = (Ret r, forget s')).
  { intro H1. destruct (ltb (t - time s) 0); [discriminate |]. destruct (first_attempt s) as [a |]; [| discriminate].
    destruct (step_once n f s (t - time s) a false) as [[full | |] s1] eqn:SO; [| discriminate | discriminate].
    rewrite (step_once_forget n f s (t - time s) a false full s1 AL SO). change (time (forget s1)) with (time s1).
    destruct (full || leb t (time s1)); injection H1 as <- <-; reflexivity. }
  destruct (xc s) as [[| y l] |]; [injection H as <- <-; reflexivity | apply G; exact H | apply G; exact H].
Qed.

Lemma to_time_forget : forall n f s tf u s' m acc, well m acc s -> xc s <> Some [] -> time s <= tf ->
  to_time n f s tf = (Ret u, s') -> to_time n f (forget s) tf = (Ret u, forget s').
Proof.
  induction n as [| n IH]; intros f s tf u s' m acc W X T H; cbn [to_time] in *; [discriminate |].
  cbn [forget set_dense sets time]. rewrite (w_max _ _ _ W) in *. set (b := Rmin tf (time s + m)) in *.
  destruct (no_further n f s None None (Some b)) as [[r | |] s1] eqn:NF; [| discriminate | discriminate].
  assert (B2 : b <= time s + m) by apply Rmin_r. assert (B1 : b <= tf) by apply Rmin_l.
  fold (forget s). rewrite (no_further_forget n f s None None (Some b) r s1 (w_al _ _ _ W) NF).
  change (time (forget s1)) with (time s1).
  destruct (no_further_ret n f s None None (Some b) _ b m acc r s1 W X (boundary_target s b m (w_max _ _ _ W) B2) NF)
    as [h [e [A [H0 [T1 _]]]]].
  assert (W1 := accepted_well f s s1 h e m acc W A).
  destruct (ltb (time s1) tf) eqn:L; [| injection H as <- <-; reflexivity]. apply ltb_iff in L.
  apply (IH f s1 tf u s' m acc W1); auto; [| lra].
  (* the state does not become empty *)
  intro E. apply X. destruct A as [s2 [nx [lim [ES [E2 _]]]]].
  destruct (step_frame f s h (Some e) s2 (w_al _ _ _ W) ES) as [c1 [D [E1 _]]].
  assert (XC : xc c1 = Some []). { subst s2 s1. destruct lim; exact E. }
  unfold do_step in D. destruct (xc s) as [x0 |]; [| injection D as D1 D2; discriminate].
  destruct (rk3 f (param s) (time s) h x0) as [[x1 e1] |] eqn:RK; [| discriminate].
  injection D as _ <-. cbn in XC. injection XC as ->.
  unfold rk3 in RK. destruct (f (param s) (time s) x0); [| discriminate].
  match type of RK with match ?u with Some _ => _ | None => _ end = _ => destruct u end; [| discriminate].
  match type of RK with match ?u with Some _ => _ | None => _ end = _ => destruct u end; [| discriminate].
  injection RK as RK _. apply (f_equal (@length R)) in RK. rewrite ? axpy_length in RK.
  destruct x0; [reflexivity | discriminate].
Qed.

Lemma dense_good : forall n f p tf w d p' m T r, keeps_dimension (length (f_x0 (defaults p))) f -> tuned m T r (sets (integ p)) -> f_x0 (defaults p) <> [] ->
  dense_solve n f p tf w = (Ret d, p') ->
  exists x u s1 s2, sanitize p tf w = Some u /\ current p' = u /\ d <> [] /\ length x = length (f_x0 u) /\
    trace f (within m (Rmin T (1 / 10)) r) (f_k u) (f_t0 u) (f_x0 u) d tf x /\
    good_state f m T r p' /\ defaults p' = defaults p /\ well m (Rmin T (1 / 10)) (integ p') /\
    xc (integ p') = Some x /\ time (integ p') = tf /\
    initialize (integ (reset_cached p u)) = (Ret tt, s1) /\ to_time n f s1 tf = (Ret tt, s2) /\ xc s2 = Some x.
Proof.
  intros n f p tf w d p' m T r K TU XD H. unfold dense_solve in H.
  destruct (sanitize p tf w) as [u |] eqn:SV; [| discriminate].
  destruct (sanitize_facts p tf w u SV) as [_ [LT [LX _]]].
  assert (XU : f_x0 u <> []). { intro E. rewrite E in LX. destruct (f_x0 (defaults p)); [contradiction | discriminate]. }
  assert (G := reset_good f m T r p u TU XU). cbv zeta in H.
  destruct (initialize (integ (reset_cached p u))) as [[[] | |] s1] eqn:EI; [| discriminate | discriminate].
  destruct G as [TU1 _].
  destruct (initialize_well (integ (reset_cached p u)) s1 m T r TU1 eq_refl I EI) as [W [E1 [E2 [E3 [E4 [E5 [E6 [E7 _]]]]]]]].
  cbn in E1, E2, E3, E4, E5.
  unfold start_dense in H. rewrite (w_init _ _ _ W) in H. cbn [negb] in H. rewrite E2 in H.
  destruct (f_x0 u) as [| y0 ys] eqn:EX; [contradiction |]. rewrite E4 in H.
  set (s2 := set_dense s1 (Some [])) in *.
  assert (W2 : well m (Rmin T (1 / 10)) s2).
  { destruct W. constructor; auto. exact I. }
  assert (X2 : xc s2 = Some (y0 :: ys)) by exact E2.
  destruct (to_time n f s2 tf) as [[[] | |] s3] eqn:TT; [| discriminate | discriminate].
  pose (J := fun s => param s = f_k u /\ sets s = sets s1 /\ exists d y, dense s = Some d /\ xc s = Some y /\ length y = length (y0 :: ys) /\
     trace f (within m (Rmin T (1 / 10)) r) (f_k u) (f_t0 u) (y0 :: ys) d (time s) y).
  assert (XN : xc s2 <> Some []) by (rewrite X2; discriminate).
  assert (TS : time s2 <= tf) by (cbn; rewrite E1; exact LT).
  destruct (to_time_inv J f m (Rmin T (1 / 10)) tf) with (n := n) (s := s2) (s' := s3)
    as [W3 [[JP [JS [d3 [y3 [D3 [Y3 [L3 T3]]]]]]] [TF [_ [S3 P3]]]]]; auto.
  - intros a b h e WA [JP [JS [d0 [y [D0 [Y0 [L0 T0]]]]]]] XA TA H0 WI A.
    destruct (accepted_frame f a b h e (w_al _ _ _ WA) A) as [_ [TB [PB [_ [SB _]]]]].
    rewrite <- JP in T0.
    destruct (accepted_trace f (within m (Rmin T (1 / 10)) r) a b h e (f_t0 u) (y0 :: ys) d0 y ltac:(rewrite L0, LX; exact K) (w_al _ _ _ WA) A D0 Y0 T0 H0)
      as [d' [y' [D' [Y' [L' [_ T']]]]]].
    { apply within_weaken with (2 := WI). rewrite JS. apply E6. }
    split; [congruence |]. split; [congruence |]. exists d', y'. rewrite JP in T'. repeat split; auto. congruence.
  - split; [exact E3 |]. split; [reflexivity |]. exists [], (y0 :: ys). repeat split; auto. cbn [s2 set_dense time]. rewrite E1. apply trace_nil.
  - rewrite D3 in H. destruct d3 as [| g3 d3]; [discriminate |]. injection H as <- <-.
    assert (TTF := to_time_forget n f s2 tf tt s3 m (Rmin T (1 / 10)) W2 XN TS TT).
    assert (F2 : forget s2 = s1). { unfold forget, s2, set_dense. cbn. rewrite <- (istate_eta s1) at 7. rewrite E4. reflexivity. }
    rewrite F2 in TTF. rewrite TF in T3.
    exists y3, u, s1, (forget s3). rewrite EX.
    split; [reflexivity |]. split; [reflexivity |]. split; [discriminate |]. split; [exact L3 |]. split; [exact T3 |].
    split; [| split; [reflexivity |]; split; [| cbn; auto]].
    + unfold good_state. cbn [set_integ current integ reset_cached]. split; [cbn; rewrite JS; exact E6 |].
      split; [reflexivity |]. split; [exact JP |]. split; [rewrite EX; discriminate |]. right.
      split; [destruct W3; constructor; auto; exact I |]. exists y3. cbn. rewrite EX. split; [exact Y3 |]. split; [exact L3 |].
      rewrite TF. apply trace_path in T3. exact T3.
    + destruct W3; constructor; auto. exact I.
Qed.

(** * Evaluation *)

Lemma hermite_ends : forall h y0 y1 d0 d1, h <> 0 -> exists c2 c3,
  (forall u, hermite h y0 y1 d0 d1 u = y0 + d0 * u + c2 * u ^ 2 + c3 * u ^ 3) /\
  y0 + d0 * h + c2 * h ^ 2 + c3 * h ^ 3 = y1 /\ d0 + 2 * c2 * h + 3 * c3 * h ^ 2 = d1.
Proof.
  intros h y0 y1 d0 d1 H.
  exists (1 / (h * h) * (y1 - y0 - h * d0 - h * (d1 - d0 - 2 / h * (y1 - y0 - h * d0)))), (1 / (h * h) * (d1 - d0 - 2 / h * (y1 - y0 - h * d0))).
  repeat split; [intro u; unfold hermite; ring | field; exact H | field; exact H].
Qed.

Lemma find_seg_at : forall pre g post g0 d t, g0 :: d = pre ++ g :: post ->
  (forall g', In g' pre -> g_t0 g' <= g_t0 g) ->
  g_t0 g <= t -> (forall g' rest, post = g' :: rest -> t < g_t0 g') -> find_seg g0 d t = g.
Proof.
  induction pre as [| p pre IH]; intros g post g0 d t E S L N.
  - injection E as -> ->. destruct post as [| g' rest]; [reflexivity |]. cbn. rewrite leb_f by (apply (N g' rest); reflexivity). reflexivity.
  - injection E as -> ->. destruct pre as [| p' pre'].
    + cbn. rewrite leb_t by exact L. apply (IH g post g post t eq_refl); auto. intros g' [].
    + cbn [find_seg app]. rewrite leb_t by (apply Rle_trans with (2 := L); apply S; right; left; reflexivity).
      apply (IH g post p' (pre' ++ g :: post) t eq_refl); auto. intros g' I. apply S. right. exact I.
Qed.

Definition value_of (d : list seg) (i : nat) (t : R) : option R := match evaluate d i t with Ret o => o | _ => None end.

Lemma evaluate_inside : forall d i t a b, d <> [] -> out_start d = Some a -> out_end d = Some b -> a <= t <= b ->
  exists g d', d = g :: d' /\ evaluate d i t = Ret (seg_value i (find_seg g d' t) t).
Proof.
  intros d i t a b N S E B. destruct d as [| g d']; [contradiction |]. exists g, d'. split; [reflexivity |].
  unfold evaluate. rewrite E. cbn in S. injection S as S. rewrite ltb_f by lra. rewrite ltb_f by lra. reflexivity.
Qed.

Lemma trace_interpolates_gen : forall f good k t x d t' x', (forall k t x, exists v, f k t x = Some v) ->
  trace f good k t x d t' x' ->
  forall pre total a, total = pre ++ d -> (forall g, In g pre -> g_t0 g <= t) -> out_start total = Some a -> a <= t ->
  (d <> [] -> out_end total = Some t') ->
  interpolates (value_of total) f good k t x t' x'.
Proof.
  intros f good k t x d t' x' TOT T. induction T as [t x | t x h x1 e d t' x' K H G T IH]; intros pre total a ET PRE ST A EN;
    [apply interpolates_here |].
  destruct (TOT k t x) as [d0 D0]. destruct (TOT k (t + h) x1) as [d1 D1].
  set (g := Seg t (t + h) (Some x) (Some x1) (f k t x) (f k (t + h) x1)) in *.
  specialize (EN ltac:(discriminate)).
  destruct (trace_time f good k (t + h) x1 d t' x' T) as [TT TN].
  apply (interpolates_step _ f good k t x h x1 e t' x' d0 d1); auto.
  - intro i. destruct (hermite_ends h (nth i x 0) (nth i x1 0) (nth i d0 0) (nth i d1 0)) as [c2 [c3 [C1 [C2 C3]]]]; [lra |].
    exists c2, c3. split; [| split; assumption]. intros u U.
    assert (NT : total <> []) by (rewrite ET; intro Z; apply app_eq_nil in Z; destruct Z; discriminate).
    destruct (evaluate_inside total i (t + u) a t' NT ST EN) as [g0 [dd [E0 EV]]]; [lra |].
    unfold value_of. rewrite EV.
    assert (SG : forall u, seg_value i g (t + u) = Some (nth i x 0 + nth i d0 0 * u + c2 * u ^ 2 + c3 * u ^ 3)).
    { intro w. unfold seg_value, g. cbn [g_x0 g_x1 g_d0 g_d1 g_t0 g_t1]. rewrite D0, D1. f_equal.
      replace (t + h - t) with h by ring. replace (t + w - t) with w by ring. apply C1. }
    assert (CUT : u < h \/ d = [] \/ (u = h /\ exists g' d', d = g' :: d')).
    { destruct (Rlt_le_dec u h); [left; assumption |]. right. destruct d as [| g' d']; [left; reflexivity | right].
      split; [lra | exists g', d'; reflexivity]. }
    destruct CUT as [C | [C | [-> [g' [d' C]]]]].
    + rewrite (find_seg_at pre g d g0 dd (t + u)); [apply SG | congruence | exact PRE | cbn; lra |].
      intros g' rest E'. subst d. rewrite (trace_start f good k (t + h) x1 g' rest t' x' T). lra.
    + rewrite (find_seg_at pre g d g0 dd (t + u)); [apply SG | congruence | exact PRE | cbn; lra |].
      intros g' rest E'. rewrite C in E'. discriminate.
    + (* the next segment starts there with the same value *)
      assert (G0 := trace_start f good k (t + h) x1 g' d' t' x'). rewrite C in T. specialize (G0 T).
      rewrite (find_seg_at (pre ++ [g]) g' d' g0 dd (t + h)).
      * inversion T as [| ? ? h2 x2 e2 ? ? ? K2 H2 G2 T2]; subst.
        destruct (TOT k (t + h + h2) x2) as [d2 D2].
        unfold seg_value. cbn [g_x0 g_x1 g_d0 g_d1 g_t0 g_t1]. rewrite D1, D2. f_equal.
        replace (t + h - (t + h)) with 0 by ring. rewrite C2. unfold hermite, nth0. ring.
      * rewrite <- app_assoc. cbn. congruence.
      * intros q Q. apply in_app_or in Q. destruct Q as [Q | [<- | []]]; rewrite G0; [specialize (PRE q Q); lra | cbn; lra].
      * rewrite G0. lra.
      * intros q rest E'. inversion T as [| ? ? h2 x2 e2 ? ? ? K2 H2 G2 T2]; subst.
        rewrite (trace_start f good k (t + h + h2) x2 q rest t' x' T2). lra.
  - apply (IH (pre ++ [g]) total a); auto.
    + rewrite <- app_assoc. exact ET.
    + intros q Q. apply in_app_or in Q. destruct Q as [Q | [<- | []]]; [specialize (PRE q Q); lra | cbn; lra].
    + lra.
Qed.

Lemma trace_interpolates : forall f good k t x d t' x', (forall k t x, exists v, f k t x = Some v) -> d <> [] ->
  trace f good k t x d t' x' -> interpolates (value_of d) f good k t x t' x'.
Proof.
  intros f good k t x d t' x' TOT N T.
  apply (trace_interpolates_gen f good k t x d t' x' TOT T [] d t eq_refl).
  - intros g [].
  - destruct d as [| g d]; [contradiction |]. cbn. f_equal. apply (trace_start f good k t x g d t' x' T).
  - lra.
  - intro NN. apply (trace_end f good k t x d t' x' T NN).
Qed.
