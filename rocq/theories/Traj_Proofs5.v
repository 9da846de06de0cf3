(** Appended and removed segments, operators, blocks. *)
From Coq Require Import List QArith Qabs ZArith NArith Bool Arith Lia Lqa.
From Verif Require Import Base Poly_Model Poly_Spec Poly_Proofs Poly_Proofs2 Poly_Proofs3 Poly_Props Traj_Model Traj_Spec Traj_Proofs Traj_Proofs2 Traj_Proofs3 Traj_Proofs4.
Import ListNotations.

Lemma extend_ok p R C time m : sound p R C -> last_break p < time -> m_rows m = R -> m_cols m = C ->
  (forall r c, (r < R)%nat -> (c < C)%nat -> good (m_at m r c) /\ p_univ (m_at m r c) = true) ->
  let s := Traj (breaks p ++ [time]) (polys p ++ [m]) in sound s R C /\
  (forall j, (j <= List.length (polys p))%nat -> nth j (breaks s) 0 = nth j (breaks p) 0) /\ nth (S (List.length (polys p))) (breaks s) 0 = time /\
  nth (List.length (polys p)) (breaks p) 0 = last_break p /\
  (forall j r c, (j < List.length (polys p))%nat -> entry s j r c = entry p j r c) /\ (forall r c, entry s (List.length (polys p)) r c = m_at m r c) /\
  first_break s = first_break p /\ last_break s = time.
Proof.
  intros So Lt Mr Mc G s. pose proof (len_breaks p R C So) as LB. pose proof (polys_pos p R C So) as PP.
  assert (Eb : forall j, (j <= List.length (polys p))%nat -> nth j (breaks s) 0 = nth j (breaks p) 0) by (intros; unfold s; cbn [breaks]; apply app_nth1; lia).
  assert (Et : nth (S (List.length (polys p))) (breaks s) 0 = time) by (unfold s; cbn [breaks]; rewrite app_nth2 by lia; rewrite LB, Nat.sub_diag; reflexivity).
  assert (El : nth (List.length (polys p)) (breaks p) 0 = last_break p) by (unfold last_break; rewrite last_nth, LB; f_equal; lia).
  assert (Ls : List.length (breaks s) = S (S (List.length (polys p)))) by (unfold s; cbn [breaks]; rewrite app_length; simpl; lia).
  split; [|split; [exact Eb|split; [exact Et|split; [exact El|split; [|split; [|split]]]]]].
  - apply sound_build.
    + rewrite !app_length. simpl. lia.
    + destruct (polys p); discriminate.
    + change (rising (breaks s)). intros i Hi. rewrite Ls in Hi. destruct (Nat.eq_dec i (List.length (polys p))) as [->|Ni].
      * rewrite Et, Eb by lia. rewrite El. exact Lt.
      * rewrite !Eb by lia. assert (RI : rising (breaks p)) by apply So. apply RI. lia.
    + intros i m0 E. destruct (Nat.lt_ge_cases i (List.length (polys p))) as [L|L].
      * rewrite nth_error_app1 in E by auto. apply (sound_seg p R C i m0 So E).
      * rewrite nth_error_app2 in E by auto. destruct (i - List.length (polys p))%nat as [|k]; [|destruct k; discriminate]. injection E as <-. auto.
  - intros j r c Hj. unfold entry, s. cbn [polys]. rewrite app_nth1 by auto. reflexivity.
  - intros r c. unfold entry, s. cbn [polys]. rewrite app_nth2, Nat.sub_diag by lia. reflexivity.
  - unfold first_break. rewrite !hd_nth. apply Eb. lia.
  - unfold last_break, s. cbn [breaks]. apply last_last.
Qed.
(** Values of the extended trajectory. *)
Lemma extend_value p R C time m : sound p R C -> last_break p < time -> m_rows m = R -> m_cols m = C ->
  (forall r c, (r < R)%nat -> (c < C)%nat -> good (m_at m r c) /\ p_univ (m_at m r c) = true) ->
  forall t M, tvalue (Traj (breaks p ++ [time]) (polys p ++ [m])) t = Ok M -> forall r c, (r < R)%nat -> (c < C)%nat ->
  (t < last_break p -> forall N, tvalue p t = Ok N -> m_at M r c == m_at N r c) /\
  (last_break p <= t <= time -> m_at M r c == curve (m_at m r c) (t - last_break p)) /\
  (time <= t -> m_at M r c == curve (m_at m r c) (time - last_break p)).
Proof.
  intros So Lt Mr Mc G t M V r c Hr Hc. destruct (extend_ok p R C time m So Lt Mr Mc G) as (Ss & Eb & Et & El & E1 & E2 & Fs & Ls). set (s := Traj (breaks p ++ [time]) (polys p ++ [m])) in *.
  pose proof (len_breaks p R C So) as LB. pose proof (polys_pos p R C So) as PP. destruct (value_works s R C t M Ss V) as (_ & _ & W).
  assert (Lb : List.length (breaks s) = S (S (List.length (polys p)))) by (unfold s; cbn [breaks]; rewrite app_length; simpl; lia).
  assert (RI : rising (breaks p)) by apply So. assert (FL : first_break p < last_break p) by (unfold first_break; rewrite hd_nth, <- El; apply rising_lt; [auto|lia]).
  assert (Sp : forall x, last_break p <= x <= time -> span (breaks s) x (List.length (polys p))).
  { intros x Hx. split; [lia|]. rewrite Et, Eb, El by lia. split; [lra|]. destruct (Qlt_le_dec x time); [left; auto|right]. split; [lia|lra]. }
  split; [|split].
  - intros Ht N VN. destruct (value_works p R C t N So VN) as (_ & _ & WN). destruct (spot p R C t So) as (i & x & Cl & Si & Hi). rewrite (WN i x Cl Si r c Hr Hc).
    assert (Lx : x < last_break p).
    { destruct Cl as (C1 & _ & C3). destruct (Qlt_le_dec t (first_break p)) as [Y|Y]; [specialize (C1 Y); lra|specialize (C3 Y ltac:(lra)); lra]. }
    rewrite (W i x); auto.
    + rewrite E1, Eb by lia. reflexivity.
    + destruct Cl as (C1 & C2 & C3). split; [|split]; intros; rewrite ?Fs, ?Ls in *; [apply C1; lra|lra|apply C3; lra].
    + destruct Si as (S1 & S2 & S3). apply span_lt; [lia|rewrite Eb by lia; exact S2|]. rewrite Eb by lia. destruct S3 as [S3|[S3 S4]]; [exact S3|].
      replace (S i) with (List.length (polys p)) in * by lia. rewrite El in *. lra.
  - intros Ht. rewrite (W (List.length (polys p)) t); auto; [|apply closest_self; rewrite Fs, Ls; lra]. rewrite E2, Eb, El by lia. reflexivity.
  - intros Ht. rewrite (W (List.length (polys p)) time); auto; [rewrite E2, Eb, El by lia; reflexivity| |apply Sp; lra].
    rewrite Fs, Ls. split; [|split]; intros; [lra|reflexivity|lra].
Qed.
Lemma extend_remove p R C time m : sound p R C -> remove_final (Traj (breaks p ++ [time]) (polys p ++ [m])) = Ok p.
Proof.
  intros So. unfold remove_final, empty. cbn [polys breaks]. rewrite !removelast_last. destruct (polys p ++ [m]) eqn:E; [destruct (polys p); discriminate|]. cbn [negb throw_unless].
  destruct p; reflexivity.
Qed.

(** The end of the last segment. *)
Lemma end_value p R C r c M : sound p R C -> tvalue p (last_break p) = Ok M -> (r < R)%nat -> (c < C)%nat ->
  m_at M r c == curve (entry p (List.length (polys p) - 1) r c) (last_break p - nth (List.length (polys p) - 1) (breaks p) 0).
Proof.
  intros So V Hr Hc. pose proof (len_breaks p R C So) as LB. pose proof (polys_pos p R C So) as PP. apply (value_at p R C _ M); auto.
  assert (El : nth (List.length (polys p)) (breaks p) 0 = last_break p) by (unfold last_break; rewrite last_nth, LB; f_equal; lia).
  split; [lia|]. replace (S (List.length (polys p) - 1)) with (List.length (polys p)) by lia. rewrite El. split.
  - rewrite <- El. apply rising_le; [apply So|lia].
  - right. split; [lia|reflexivity].
Qed.
Lemma end_derives p R C r c k g M : sound p R C -> EvalDerivative p (last_break p) k = Ok M -> (r < R)%nat -> (c < C)%nat -> derives k (curve (entry p (List.length (polys p) - 1) r c)) g ->
  m_at M r c == g (last_break p - nth (List.length (polys p) - 1) (breaks p) 0).
Proof.
  intros So V Hr Hc D. pose proof (len_breaks p R C So) as LB. pose proof (polys_pos p R C So) as PP. pose proof (first_le_last p R C So). apply (eval_derives p R C (last_break p) k M So V); auto.
  - apply closest_self. lra.
  - assert (El : nth (List.length (polys p)) (breaks p) 0 = last_break p) by (unfold last_break; rewrite last_nth, LB; f_equal; lia).
    split; [lia|]. replace (S (List.length (polys p) - 1)) with (List.length (polys p)) by lia. rewrite El. split; [|right; split; [lia|reflexivity]].
    rewrite <- El. apply rising_le; [apply So|lia].
Qed.
Lemma end_segment p R C r c k : sound p R C -> (r < R)%nat -> (c < C)%nat -> exists y g, eval_segment p (List.length (polys p) - 1) (last_break p) r c k = Ok y /\
  derives k (curve (entry p (List.length (polys p) - 1) r c)) g /\ y == g (last_break p - nth (List.length (polys p) - 1) (breaks p) 0).
Proof.
  intros So Hr Hc. pose proof (polys_pos p R C So) as PP. destruct (eval_segment_ok p R C (List.length (polys p) - 1) (last_break p) r c k So ltac:(lia) Hr Hc) as (y & E & H).
  destruct (sound_entry p R C (List.length (polys p) - 1) r c So ltac:(lia) Hr Hc) as [G U]. exists y, (dsum k (p_monos (entry p (List.length (polys p) - 1) r c))).
  split; [auto|]. split; [apply dsum_of_curve; auto|exact H].
Qed.
Lemma derives0 f g : derives 0 f g -> forall x, f x == g x.
Proof. inversion 1; auto. Qed.

Lemma append_cubic_ok p R C time y yd : sound p R C -> kEpsilonTime <= time - last_break p -> m_rows y = R -> m_cols y = C -> m_rows yd = R -> m_cols yd = C ->
  exists m, append_cubic p time y yd = Ok (Traj (breaks p ++ [time]) (polys p ++ [m])) /\ last_break p < time /\ m_rows m = R /\ m_cols m = C /\
  forall r c, (r < R)%nat -> (c < C)%nat -> good (m_at m r c) /\ p_univ (m_at m r c) = true /\
    exists s sd, (forall M, tvalue p (last_break p) = Ok M -> m_at M r c == s) /\ (forall M, EvalDerivative p (last_break p) 1 = Ok M -> m_at M r c == sd) /\
    m_at m r c = poly_coefs (cubic_at (time - last_break p) s (m_at y r c) sd (m_at yd r c)).
Proof.
  intros So Sp Y1 Y2 D1 D2. pose proof eps_pos as EP. pose proof (polys_pos p R C So) as PP. unfold append_cubic.
  replace (negb (empty p)) with true by (unfold empty; destruct (polys p); [simpl in PP; lia|reflexivity]). rewrite (end_ok p R C So), (rows_ok p R C So), (cols_ok p R C So). cbn [obind throw_unless].
  rewrite (proj2 (Qltb_true _ _) (ltac:(lra) : last_break p < time)). cbn [throw_unless]. rewrite Y1, Y2, D1, D2, !Nat.eqb_refl. cbn [andb throw_unless].
  set (f := fun i j => obind (eval_segment p (List.length (polys p) - 1) (last_break p) i j 0) (fun s =>
      obind (eval_segment p (List.length (polys p) - 1) (last_break p) i j 1) (fun sd =>
      omap poly_coefs (cubic_coeffs (time - last_break p) s (m_at y i j) sd (m_at yd i j))))).
  assert (Hf : forall r c, (r < R)%nat -> (c < C)%nat -> exists s sd, f r c = Ok (poly_coefs (cubic_at (time - last_break p) s (m_at y r c) sd (m_at yd r c))) /\
    (forall M, tvalue p (last_break p) = Ok M -> m_at M r c == s) /\ (forall M, EvalDerivative p (last_break p) 1 = Ok M -> m_at M r c == sd)).
  { intros r c Hr Hc. unfold f. destruct (end_segment p R C r c 0 So Hr Hc) as (s & g0 & E0 & G0 & V0). destruct (end_segment p R C r c 1 So Hr Hc) as (sd & g1 & E1 & G1 & V1).
    exists s, sd. rewrite E0, E1. cbn [obind]. rewrite cubic_ok by auto. cbn [omap]. split; [reflexivity|]. split.
    - intros M V. rewrite (end_derives p R C r c 0 g0 M So V Hr Hc G0). symmetry. exact V0.
    - intros M V. rewrite (end_derives p R C r c 1 g1 M So V Hr Hc G1). symmetry. exact V1. }
  destruct (each_ok poly_zero R C f) as (m & Em & Mr & Mc & Mf).
  { intros r c Hr Hc. destruct (Hf r c Hr Hc) as (s & sd & E & _). eauto. }
  fold f. rewrite Em. cbn [omap]. exists m. split; [reflexivity|]. split; [lra|]. split; [auto|]. split; [auto|]. intros r c Hr Hc. destruct (Hf r c Hr Hc) as (s & sd & E & A & B).
  rewrite (Mf r c Hr Hc) in E. injection E as ->. destruct (from_coefficients (cubic_at (time - last_break p) s (m_at y r c) sd (m_at yd r c))) as (G & U & _).
  split; [exact G|]. split; [exact U|]. exists s, sd. auto.
Qed.
Lemma append_linear_ok p R C time y : sound p R C -> last_break p < time -> m_rows y = R -> m_cols y = C ->
  exists m, append_linear p time y = Ok (Traj (breaks p ++ [time]) (polys p ++ [m])) /\ m_rows m = R /\ m_cols m = C /\
  forall r c, (r < R)%nat -> (c < C)%nat -> good (m_at m r c) /\ p_univ (m_at m r c) = true /\
    exists s, (forall M, tvalue p (last_break p) = Ok M -> m_at M r c == s) /\ m_at m r c = poly_coefs [s; (m_at y r c - s) / (time - last_break p)].
Proof.
  intros So Lt Y1 Y2. pose proof (polys_pos p R C So) as PP. unfold append_linear.
  replace (negb (empty p)) with true by (unfold empty; destruct (polys p); [simpl in PP; lia|reflexivity]). rewrite (end_ok p R C So), (rows_ok p R C So), (cols_ok p R C So). cbn [obind throw_unless].
  rewrite (proj2 (Qltb_true _ _) Lt). cbn [throw_unless]. rewrite Y1, Y2, !Nat.eqb_refl. cbn [andb throw_unless].
  set (f := fun i j => omap (fun s => poly_coefs [s; (m_at y i j - s) / (time - last_break p)]) (eval_segment p (List.length (polys p) - 1) (last_break p) i j 0)).
  assert (Hf : forall r c, (r < R)%nat -> (c < C)%nat -> exists s, f r c = Ok (poly_coefs [s; (m_at y r c - s) / (time - last_break p)]) /\
    (forall M, tvalue p (last_break p) = Ok M -> m_at M r c == s)).
  { intros r c Hr Hc. unfold f. destruct (end_segment p R C r c 0 So Hr Hc) as (s & g0 & E0 & G0 & V0). exists s. rewrite E0. cbn [omap]. split; [reflexivity|].
    intros M V. rewrite (end_derives p R C r c 0 g0 M So V Hr Hc G0). symmetry. exact V0. }
  destruct (each_ok poly_zero R C f) as (m & Em & Mr & Mc & Mf).
  { intros r c Hr Hc. destruct (Hf r c Hr Hc) as (s & E & _). eauto. }
  fold f. rewrite Em. cbn [omap]. exists m. split; [reflexivity|]. split; [auto|]. split; [auto|]. intros r c Hr Hc. destruct (Hf r c Hr Hc) as (s & E & A).
  rewrite (Mf r c Hr Hc) in E. injection E as ->. destruct (from_coefficients [s; (m_at y r c - s) / (time - last_break p)]) as (G & U & _). split; [exact G|]. split; [exact U|]. exists s. auto.
Qed.

(** Operators. *)
Lemma times_equal_refl a b tol : 0 <= tol -> List.length a = List.length b -> (forall i, (i < List.length a)%nat -> nth i a 0 == nth i b 0) -> times_equal a b tol = true.
Proof.
  intros T. revert b. induction a as [|x a IH]; intros [|y b] L H; simpl in L; try lia; [reflexivity|]. cbn [times_equal]. rewrite IH; [|lia|intros i Hi; apply (H (S i)); simpl; lia].
  rewrite andb_true_r. apply negb_true_iff. apply Qltb_false. specialize (H 0%nat ltac:(simpl; lia)). cbn [nth] in H. assert (E : x - y == 0) by lra. rewrite E. exact T.
Qed.
Lemma times_equal_inv a : forall b tol, times_equal a b tol = true -> List.length a = List.length b /\ forall i, (i < List.length a)%nat -> Qabs (nth i a 0 - nth i b 0) <= tol.
Proof.
  induction a as [|x a IH]; intros [|y b] tol E; cbn [times_equal] in E; try discriminate; [split; [reflexivity|simpl; lia]|]. apply andb_true_iff in E. destruct E as [E1 E2].
  destruct (IH b tol E2) as [L H]. split; [simpl; lia|]. intros [|i] Hi; cbn [nth]; [|apply H; simpl in Hi; lia]. apply negb_true_iff, Qltb_false in E1. exact E1.
Qed.
Lemma zipM_ok {A B D} (f : A -> B -> outcome D) : forall a b, List.length a = List.length b ->
  (forall i x y, nth_error a i = Some x -> nth_error b i = Some y -> exists z, f x y = Ok z) ->
  exists l, zipM f a b = Ok l /\ List.length l = List.length a /\ forall i x y, nth_error a i = Some x -> nth_error b i = Some y -> exists z, nth_error l i = Some z /\ f x y = Ok z.
Proof.
  induction a as [|x a IH]; intros [|y b] L H; simpl in L; try lia; cbn [zipM].
  - exists []. split; [reflexivity|]. split; [reflexivity|]. intros i x y E. destruct i; discriminate.
  - destruct (H 0%nat x y eq_refl eq_refl) as (z & Ez). rewrite Ez. cbn [obind]. destruct (IH b) as (l & El & Ll & Hl); [lia|intros i; apply (H (S i))|]. rewrite El. cbn [omap].
    exists (z :: l). split; [reflexivity|]. split; [simpl; lia|]. intros [|i] x' y' E1 E2; cbn [nth_error] in *; [|eapply Hl; eauto]. injection E1 as <-. injection E2 as <-. eauto.
Qed.
(** Two trajectories over the same times put together entry by entry. *)
Lemma zip_ok p q R C R' C' R2 C2 f : sound p R C -> sound q R' C' -> List.length (breaks q) = List.length (breaks p) ->
  (forall i m m', nth_error (polys p) i = Some m -> nth_error (polys q) i = Some m' -> exists z, f m m' = Ok z /\ m_rows z = R2 /\ m_cols z = C2 /\ forall r c, (r < R2)%nat -> (c < C2)%nat -> good (m_at z r c) /\ p_univ (m_at z r c) = true) ->
  exists l, zipM f (polys p) (polys q) = Ok l /\ sound (Traj (breaks p) l) R2 C2 /\ List.length l = List.length (polys p) /\
    forall i m m', nth_error (polys p) i = Some m -> nth_error (polys q) i = Some m' -> exists z, nth_error l i = Some z /\ f m m' = Ok z.
Proof.
  intros So Sq L H. pose proof (len_breaks p R C So) as LB. pose proof (len_breaks q R' C' Sq) as LQ. pose proof (polys_pos p R C So) as PP.
  destruct (zipM_ok f (polys p) (polys q)) as (l & El & Ll & Hl); [lia|intros i m m' E E'; destruct (H i m m' E E') as (z & Ez & _); eauto|].
  exists l. split; [auto|]. split; [|auto]. apply sound_build; [lia|intros ->; simpl in Ll; lia|apply So|]. intros i m E. assert (i < List.length l)%nat by (apply nth_error_Some; congruence).
  destruct (nth_error (polys p) i) as [a|] eqn:Ea; [|apply nth_error_None in Ea; lia]. destruct (nth_error (polys q) i) as [b|] eqn:Eb; [|apply nth_error_None in Eb; lia].
  destruct (Hl i a b Ea Eb) as (z & Ez & Fz). destruct (H i a b Ea Eb) as (z' & Fz' & Rest). assert (z' = z) by congruence. assert (z = m) by congruence. subst. exact Rest.
Qed.
Lemma in_var_entry v p R C i m r c : sound p R C -> in_variable v p R C -> nth_error (polys p) i = Some m -> (r < R)%nat -> (c < C)%nat -> in_var v (m_at m r c).
Proof.
  intros So V E Hr Hc. assert (Li : (i < List.length (polys p))%nat) by (apply nth_error_Some; congruence). rewrite <- (entry_nth p i m r c E). split; [apply V; auto|]. apply (sound_entry p R C i r c So); auto.
Qed.
Lemma good_padd_var v a b : (0 < v)%N -> in_var v a -> in_var v b -> good (padd a b) /\ p_univ (padd a b) = true /\ forall x, curve (padd a b) x == curve a x + curve b x.
Proof.
  intros Hv [A Ua] [B Ub]. assert (PA : Forall proper (p_monos a)) by (eapply Forall_impl; [|exact A]; intros ?; apply only_proper; auto). assert (PB : Forall proper (p_monos b)) by (eapply Forall_impl; [|exact B]; intros ?; apply only_proper; auto).
  split; [apply good_padd; auto|]. split; [exact (proj2 (in_var_padd v a b Hv (conj A Ua) (conj B Ub)))|]. intros x. apply padd_value; apply proper_distinct; auto.
Qed.
Lemma good_psub_var v a b : (0 < v)%N -> in_var v a -> in_var v b -> good (psub a b) /\ p_univ (psub a b) = true /\ forall x, curve (psub a b) x == curve a x - curve b x.
Proof.
  intros Hv [A Ua] [B Ub]. assert (PA : Forall proper (p_monos a)) by (eapply Forall_impl; [|exact A]; intros ?; apply only_proper; auto). assert (PB : Forall proper (p_monos b)) by (eapply Forall_impl; [|exact B]; intros ?; apply only_proper; auto).
  assert (IV : in_var v (psub a b)) by (apply in_var_psub; [auto|split; auto|split; auto]).
  split; [|split; [apply IV|intros x; apply psub_value; apply proper_distinct; auto]].
  unfold psub. apply unique_good. cbn [p_monos]. apply Forall_app; split; [auto|]. clear - PB. induction (p_monos b) as [|m r IH]; cbn [map]; constructor; inversion PB; subst; auto.
Qed.
Lemma good_pmul_var v a b : (0 < v)%N -> in_var v a -> in_var v b -> good (pmul a b) /\ p_univ (pmul a b) = true /\ forall x, curve (pmul a b) x == curve a x * curve b x.
Proof.
  intros Hv [A Ua] [B Ub]. assert (PA : Forall proper (p_monos a)) by (eapply Forall_impl; [|exact A]; intros ?; apply only_proper; auto). assert (PB : Forall proper (p_monos b)) by (eapply Forall_impl; [|exact B]; intros ?; apply only_proper; auto).
  split; [|split; [exact (proj2 (in_var_pmul v a b Hv (conj A Ua) (conj B Ub)))|intros x; apply pmul_value; apply proper_distinct; auto]].
  unfold pmul. apply unique_good. cbn [p_monos]. apply mul_all_proper; auto.
Qed.
(** The value of a trajectory over p's breaks, from the values of its entries. *)
Lemma same_breaks_value p R C s R2 C2 t : sound p R C -> sound s R2 C2 -> List.length (breaks s) = List.length (breaks p) -> (forall i, (i < List.length (breaks p))%nat -> nth i (breaks s) 0 == nth i (breaks p) 0) ->
  exists i x, closest (first_break p) (last_break p) t x /\ span (breaks p) x i /\ (i < List.length (polys p))%nat /\
  (forall M, tvalue p t = Ok M -> forall r c, (r < R)%nat -> (c < C)%nat -> m_at M r c == curve (entry p i r c) (x - nth i (breaks p) 0)) /\
  (forall M, tvalue s t = Ok M -> forall r c, (r < R2)%nat -> (c < C2)%nat -> m_at M r c == curve (entry s i r c) (x - nth i (breaks p) 0)).
Proof.
  intros So Ss L H. pose proof (len_breaks p R C So) as LB. destruct (spot p R C t So) as (i & x & Cl & Sp & Hi). exists i, x. split; [auto|]. split; [auto|]. split; [auto|]. split.
  - intros M V r c Hr Hc. destruct (value_works p R C t M So V) as (_ & _ & W). apply W; auto.
  - intros M V r c Hr Hc. destruct (value_works s R2 C2 t M Ss V) as (_ & _ & W). rewrite (W i x); auto.
    + apply curve_proper. rewrite H by lia. reflexivity.
    + eapply closest_ext; [| | | |exact Cl]; try reflexivity; symmetry.
      * unfold first_break. rewrite !hd_nth. apply H. lia.
      * unfold last_break. rewrite !last_nth, L. apply H. lia.
    + destruct Sp as (S1 & S2 & S3). split; [lia|]. rewrite !H by lia. split; [auto|]. destruct S3 as [S3|[S3 S4]]; [left; auto|right]. split; [lia|auto].
Qed.
Lemma psum_ok v l : (0 < v)%N -> Forall (in_var v) l -> Forall good l -> good (psum l) /\ in_var v (psum l) /\ forall x, curve (psum l) x == total (map (fun q => curve q x) l).
Proof.
  intros Hv F G. induction l as [|a r IH].
  - cbn [psum map total]. split; [apply good_const|]. split; [apply in_var_const|]. intros x. apply curve_const.
  - inversion F as [|? ? Fa Fr]; subst. inversion G as [|? ? Ga Gr]; subst. destruct (IH Fr Gr) as (A & B & D). destruct r as [|b r].
    + cbn [psum map total]. split; [auto|]. split; [auto|]. intros x. ring.
    + change (psum (a :: b :: r)) with (padd a (psum (b :: r))). destruct (good_padd_var v a (psum (b :: r)) Hv Fa B) as (X & Y & Z). split; [auto|]. split; [apply in_var_padd; auto|].
      intros x. rewrite Z, D. reflexivity.
Qed.
