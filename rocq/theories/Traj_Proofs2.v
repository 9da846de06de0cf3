(** Derivatives and changes of time. *)
From Coq Require Import List QArith Qabs ZArith NArith Bool Arith Lia Lqa.
From Verif Require Import Base Poly_Model Poly_Spec Poly_Proofs Poly_Proofs2 Poly_Proofs3 Poly_Props Traj_Model Traj_Spec Traj_Proofs.
Import ListNotations.

Lemma derives_unique k : forall f f' g g', (forall x, f x == f' x) -> derives k f g -> derives k f' g' -> forall x, g x == g' x.
Proof.
  induction k as [|k IH]; intros f f' g g' E D D' x.
  - inversion D as [? ? A|]; subst. inversion D' as [? ? A'|]; subst. rewrite <- (A x), <- (A' x). apply E.
  - inversion D as [|? ? a ? Sa Da]; subst. inversion D' as [|? ? b ? Sb Db]; subst. apply (IH a b g g'); auto.
    intros y. apply (slope_unique f y); [apply Sa|]. apply (slope_ext f' f y (b y) (b y)); [intros z; symmetry; apply E|reflexivity|apply Sb].
Qed.
Lemma derives_plus j : forall k f g h, derives j f g -> derives k g h -> derives (j + k) f h.
Proof.
  induction j as [|j IH]; intros k f g h D D'.
  - inversion D as [? ? A|]; subst. apply (derives_ext k g f h h); [intros; symmetry; apply A|reflexivity|exact D'].
  - inversion D as [|? ? a ? Sa Da]; subst. cbn [Nat.add]. econstructor; [exact Sa|]. eapply IH; eauto.
Qed.
Lemma dsum_of_curve q k : good q -> p_univ q = true -> derives k (curve q) (dsum k (p_monos q)).
Proof.
  intros G U. apply (derives_ext k (dsum 0 (p_monos q)) _ (dsum (k + 0) (p_monos q)) _); [intros x; symmetry; apply curve_dsum; auto| |apply dsum_derives].
  intros x. rewrite Nat.add_0_r. reflexivity.
Qed.

Lemma nth_error_entry p i r c : (i < List.length (polys p))%nat -> exists m, nth_error (polys p) i = Some m /\ entry p i r c = m_at m r c.
Proof. intros L. destruct (nth_error (polys p) i) as [m|] eqn:E; [|apply nth_error_None in E; lia]. exists m. split; [auto|]. apply entry_nth; auto. Qed.
Lemma Forall2_nth {A B} (P : A -> B -> Prop) l l' : Forall2 P l l' -> forall i a, nth_error l i = Some a -> exists b, nth_error l' i = Some b /\ P a b.
Proof. induction 1 as [|a b l l' H F IH]; intros [|i] x E; try discriminate; cbn [nth_error] in *; [injection E as <-; eauto|apply IH; auto]. Qed.

Lemma f2_len {A B} (P : A -> B -> Prop) l l' : Forall2 P l l' -> List.length l = List.length l'.
Proof. induction 1; simpl; congruence. Qed.
Lemma map_entries_ok p R C f : sound p R C ->
  (forall q, good q -> p_univ q = true -> exists q', f q = Ok q' /\ good q' /\ p_univ q' = true) ->
  exists p', map_entries p f = Ok p' /\ breaks p' = breaks p /\ List.length (polys p') = List.length (polys p) /\ sound p' R C /\
  forall i r c, (i < List.length (polys p))%nat -> (r < R)%nat -> (c < C)%nat -> f (entry p i r c) = Ok (entry p' i r c).
Proof.
  intros So H. unfold map_entries. rewrite (rows_ok p R C So), (cols_ok p R C So). cbn [obind].
  destruct (mapM_ok (fun m => each poly_zero R C (fun i j => f (m_at m i j))) (polys p)) as [l' E].
  { intros m I. apply In_nth_error in I. destruct I as [n En]. assert (Ln : (n < List.length (polys p))%nat) by (apply nth_error_Some; congruence).
    destruct (each_ok poly_zero R C (fun i j => f (m_at m i j))) as (m' & Em & _); [|eauto]. intros i j Hi Hj.
    rewrite <- (entry_nth p n m i j En). destruct (sound_entry p R C n i j So Ln Hi Hj) as [G U]. destruct (H _ G U) as (q' & -> & _). eauto. }
  rewrite E. cbn [omap]. eexists. split; [reflexivity|]. apply mapM_inv in E. cbn [breaks polys].
  pose proof (f2_len _ _ _ E) as Le.
  assert (En : forall i r c, (i < List.length (polys p))%nat -> (r < R)%nat -> (c < C)%nat -> f (entry p i r c) = Ok (entry (Traj (breaks p) l') i r c)).
  { intros i r c Hi Hr Hc. destruct (nth_error_entry p i r c Hi) as (m & Em & ->). destruct (Forall2_nth _ _ _ E i m Em) as (m' & Em' & Ef). apply each_inv in Ef. destruct Ef as (_ & _ & Ef).
    rewrite (entry_nth (Traj (breaks p) l') i m' r c Em'). apply Ef; auto. }
  split; [reflexivity|]. split; [auto|]. split; [|exact En]. destruct So as (L & N & RI & D & G). split; [cbn [breaks polys]; lia|]. split.
  { cbn [polys]. intros ->. destruct (polys p); [congruence|discriminate]. }
  split; [exact RI|]. split.
  { cbn [polys]. clear - E. induction E as [|m m' l l' Em E IH]; constructor; [|exact IH]. apply each_inv in Em. tauto. }
  cbn [polys]. intros i r c Hi Hr Hc. rewrite <- Le in Hi. destruct (G i r c Hi Hr Hc) as [G1 G2]. destruct (H _ G1 G2) as (q' & Eq & Gq & Uq). rewrite (En i r c Hi Hr Hc) in Eq. injection Eq as ->. auto.
Qed.

Lemma derivative_ok p R C k : sound p R C ->
  exists p', derivative p k = Ok p' /\ breaks p' = breaks p /\ List.length (polys p') = List.length (polys p) /\ sound p' R C /\
  forall i r c, (i < List.length (polys p))%nat -> (r < R)%nat -> (c < C)%nat -> derives k (curve (entry p i r c)) (curve (entry p' i r c)).
Proof.
  intros So. unfold derivative. destruct (Nat.eqb_spec k 0) as [->|Nk].
  - exists p. split; [reflexivity|]. split; [reflexivity|]. split; [reflexivity|]. split; [exact So|]. intros. constructor. reflexivity.
  - destruct (map_entries_ok p R C (fun q => Derivative q k) So) as (p' & E & B & L & So' & H).
    { intros q G U. destruct (derivative_means q k G U) as (q' & Eq & Gq & Uq & _). eauto. }
    exists p'. split; [exact E|]. split; [exact B|]. split; [exact L|]. split; [exact So'|]. intros i r c Hi Hr Hc. specialize (H i r c Hi Hr Hc).
    destruct (sound_entry p R C i r c So Hi Hr Hc) as [G U]. destruct (derivative_means _ k G U) as (q' & Eq & _ & _ & D). rewrite Eq in H. injection H as ->. exact D.
Qed.

(** Breaks moved by an increasing affine map. *)
Lemma rising_affine (l l' : list Q) a o : 0 < a -> List.length l' = List.length l -> (forall i, (i < List.length l)%nat -> nth i l' 0 == a * nth i l 0 + o) -> rising l -> rising l'.
Proof. intros A L H RI i Hi. rewrite !H by lia. specialize (RI i ltac:(lia)). nra. Qed.
Lemma span_affine (l l' : list Q) a o x i : 0 < a -> List.length l' = List.length l -> (forall i, (i < List.length l)%nat -> nth i l' 0 == a * nth i l 0 + o) ->
  span l x i -> span l' (a * x + o) i.
Proof.
  intros A L H (B1 & B2 & B3). split; [lia|]. rewrite (H i ltac:(lia)), (H (S i) ltac:(lia)). split; [nra|]. destruct B3 as [B3|[B3 B4]]; [left; nra|right]. split; [lia|]. rewrite B4. reflexivity.
Qed.
Lemma closest_affine lo hi t x a o : 0 < a -> closest lo hi t x -> closest (a * lo + o) (a * hi + o) (a * t + o) (a * x + o).
Proof.
  intros A (B1 & B2 & B3). split; [|split]; intros.
  - rewrite B1 by nra. reflexivity.
  - rewrite B2 by nra. reflexivity.
  - rewrite B3 by nra. reflexivity.
Qed.
Lemma closest_ext lo lo' hi hi' t t' x x' : lo == lo' -> hi == hi' -> t == t' -> x == x' -> closest lo hi t x -> closest lo' hi' t' x'.
Proof. intros E1 E2 E3 E4 (B1 & B2 & B3). split; [|split]; intros; [specialize (B1 ltac:(lra))|specialize (B2 ltac:(lra))|specialize (B3 ltac:(lra) ltac:(lra))]; lra. Qed.

Lemma affine_moves p p' R C a o t t' M M' : sound p R C -> sound p' R C -> 0 < a -> List.length (breaks p') = List.length (breaks p) ->
  (forall i, (i < List.length (breaks p))%nat -> nth i (breaks p') 0 == a * nth i (breaks p) 0 + o) ->
  (forall i r c u, (i < List.length (polys p))%nat -> (r < R)%nat -> (c < C)%nat -> curve (entry p' i r c) (a * u) == curve (entry p i r c) u) ->
  t' == a * t + o -> tvalue p t = Ok M -> tvalue p' t' = Ok M' -> forall r c, (r < R)%nat -> (c < C)%nat -> m_at M' r c == m_at M r c.
Proof.
  intros So So' A L Hb Hc Et E E' r c Hr Hcc. destruct (value_works p R C t M So E) as (_ & _ & V). destruct (value_works p' R C t' M' So' E') as (_ & _ & V').
  destruct (spot p R C t So) as (i & x & Cl & Sp & Hi). pose proof (len_breaks p R C So) as LB.
  rewrite (V' i (a * x + o)); auto.
  - rewrite (V i x Cl Sp r c Hr Hcc). rewrite <- Hc by auto. apply curve_proper. rewrite Hb by lia. ring.
  - eapply closest_ext; [| | | |apply (closest_affine _ _ t x a o A Cl)]; try reflexivity; [| |symmetry; exact Et].
    + unfold first_break. rewrite !hd_nth. symmetry. apply Hb. lia.
    + unfold last_break. rewrite !last_nth, L. symmetry. apply Hb. lia.
  - eapply span_affine; eauto.
Qed.

Lemma nth_map_q (f : Q -> Q) l i : (i < List.length l)%nat -> nth i (map f l) 0 = f (nth i l 0).
Proof. intros L. rewrite (nth_indep _ 0 (f 0)) by (rewrite map_length; auto). apply map_nth. Qed.

Lemma shift_ok p R C o : sound p R C -> sound (shiftRight p o) R C.
Proof.
  intros (L & N & RI & D & G). split; [cbn [shiftRight breaks polys]; rewrite map_length; auto|]. split; [auto|]. split.
  - apply (rising_affine (breaks p) _ 1 o); [reflexivity|cbn [shiftRight breaks]; apply map_length| |exact RI]. intros i Hi. cbn [shiftRight breaks]. rewrite nth_map_q by auto. ring.
  - split; auto.
Qed.

Lemma scale_horner s u : ~ s == 0 -> forall l i, horner (scale_coeffs s i l) u == horner l (u / s) / qpow s i.
Proof.
  intros Ns. assert (P : forall i, ~ qpow s i == 0).
  { induction i as [|i IH]; cbn [qpow]; [intros H; discriminate|]. intros H. apply Qmult_integral in H. tauto. }
  induction l as [|c r IH]; intros i; cbn [scale_coeffs horner].
  - field. apply P.
  - rewrite IH. cbn [qpow]. destruct i; cbn [qpow].
    + field. auto.
    + field. split; [auto|apply P].
Qed.
Lemma degree_zero_curve q x y : good q -> p_univ q = true -> GetDegree q = O -> curve q x == curve q y.
Proof.
  intros (_ & _ & O) U D. destruct (O U) as (v & _ & F). unfold curve, value. destruct (degree_fold (p_monos q) 0) as (_ & B & _). fold (GetDegree q) in B.
  assert (Z : forall m, In m (p_monos q) -> only v m /\ pw m = 0%nat).
  { intros m I. rewrite Forall_forall in F. split; [auto|]. specialize (B m I). rewrite (only_degree v m (F m I)) in B. lia. }
  revert Z. generalize (p_monos q) as ms. clear. induction ms as [|m r IH]; intros Z; cbn [sumval]; [reflexivity|]. rewrite IH by (intros; apply Z; right; auto).
  destruct (Z m (or_introl eq_refl)) as [Om Pm]. unfold mval. rewrite (only_tval v m x Om), (only_tval v m y Om), Pm. reflexivity.
Qed.
Lemma scale_entry_ok s q : 0 < s -> good q -> p_univ q = true -> exists q', scale_entry s q = Ok q' /\ good q' /\ p_univ q' = true /\ forall u, curve q' (s * u) == curve q u.
Proof.
  intros Hs G U. unfold scale_entry. destruct (Nat.eqb_spec (GetDegree q) 0) as [D|D].
  - exists q. split; [reflexivity|]. split; [auto|]. split; [auto|]. intros u. apply degree_zero_curve; auto.
  - destruct (coefficients_listed q G U) as (l & E & _ & H). rewrite E. cbn [omap]. eexists. split; [reflexivity|].
    destruct (from_coefficients (scale_coeffs s 0 l)) as (G' & U' & H'). split; [auto|]. split; [auto|]. intros u. rewrite H'. rewrite scale_horner by lra. cbn [qpow].
    assert (Eu : s * u / s == u) by (field; lra). rewrite H. rewrite (curve_proper q _ _ Eu). field.
Qed.
Lemma scale_ok p R C s : sound p R C -> 0 < s -> exists p', ScaleTime p s = Ok p' /\ breaks p' = map (fun b => b * s) (breaks p) /\ List.length (polys p') = List.length (polys p) /\ sound p' R C /\
  forall i r c u, (i < List.length (polys p))%nat -> (r < R)%nat -> (c < C)%nat -> curve (entry p' i r c) (s * u) == curve (entry p i r c) u.
Proof.
  intros So Hs. unfold ScaleTime. replace (Qltb 0 s) with true by (symmetry; apply Qltb_true; auto). cbn [throw_unless].
  destruct (map_entries_ok p R C (scale_entry s) So) as (p' & E & B & L & So' & H).
  { intros q G U. destruct (scale_entry_ok s q Hs G U) as (q' & ? & ? & ? & _). eauto. }
  rewrite E. cbn [omap]. eexists. split; [reflexivity|]. cbn [breaks polys]. rewrite B. split; [reflexivity|]. split; [exact L|]. split.
  - destruct So' as (L' & N' & RI' & D' & G'). split; [cbn [breaks polys]; rewrite map_length; rewrite <- B; exact L'|]. split; [exact N'|]. split; [|split; [exact D'|exact G']]. cbn [breaks].
    apply (rising_affine (breaks p) _ s 0); [auto|apply map_length| |apply So]. intros i Hi. rewrite nth_map_q by auto. ring.
  - intros i r c u Hi Hr Hc. specialize (H i r c Hi Hr Hc). destruct (sound_entry p R C i r c So Hi Hr Hc) as [G U]. destruct (scale_entry_ok s _ Hs G U) as (q' & Eq & _ & _ & Hq).
    rewrite Eq in H. injection H as ->. apply Hq.
Qed.

(** ReverseTime. *)
Lemma var_occurs_only v q w : Forall (only v) (p_monos q) -> occurs w q -> w = v.
Proof. rewrite Forall_forall. intros F (m & t & I & J & <-). destruct (F m I) as [E|(k & _ & E)]; rewrite E in J; [destruct J|]. destruct J as [<-|[]]. reflexivity. Qed.
Lemma put_all rho v x : (forall w, rho w == x) -> forall w, put rho v x w == x.
Proof. intros H w. unfold put. destruct (N.eqb w v); [reflexivity|apply H]. Qed.
Lemma tval_rho rho rho' ts : (forall t, In t ts -> rho (t_var t) == rho' (t_var t)) -> tval rho ts == tval rho' ts.
Proof. induction ts as [|t r IH]; intros H; cbn [tval]; [reflexivity|]. rewrite IH by (intros; apply H; right; auto). rewrite (power_comp _ _ _ (H t (or_introl eq_refl))). reflexivity. Qed.
Lemma only_value v q rho : Forall (only v) (p_monos q) -> value rho q == curve q (rho v).
Proof.
  unfold value, curve. rewrite Forall_forall. intros F. unfold value. induction (p_monos q) as [|m r IH]; cbn [sumval]; [reflexivity|].
  rewrite IH by (intros; apply F; right; auto). apply Qplus_comp; [|reflexivity]. unfold mval. apply Qmult_comp; [reflexivity|].
  destruct (F m (or_introl eq_refl)) as [E|(k & _ & E)]; rewrite E; cbn [tval t_var]; reflexivity.
Qed.
Lemma in_var_subst_terms v w r : (0 < v)%N -> in_var v r -> forall ts m p, in_var v m -> in_var v p -> (forall t, In t ts -> t_var t = v /\ (0 < t_pow t)%nat) ->
  in_var v (subst_terms w r ts m p).
Proof.
  intros Hv Hr. induction ts as [|t ts IH]; intros m p Hm Hp Ht; cbn [subst_terms]; [exact Hp|].
  assert (X : in_var v (if N.eqb (t_var t) w then pmul m (ppow r (t_pow t)) else pmul m (poly_terms 1 [t]))).
  { destruct (Ht t (or_introl eq_refl)) as [Ev Pt]. destruct (N.eqb (t_var t) w); apply in_var_pmul; auto; [apply in_var_ppow; auto|].
    split; [|reflexivity]. constructor; [|constructor]. right. exists (t_pow t). destruct t; cbn in *. subst. auto. }
  cbv zeta. apply IH; [exact X| |intros; apply Ht; right; auto]. apply in_var_padd; auto.
Qed.
Lemma in_var_zero v : in_var v poly_zero.
Proof. split; [constructor|reflexivity]. Qed.
Lemma in_var_Substitute v w r q : (0 < v)%N -> in_var v r -> Forall (only v) (p_monos q) -> in_var v (Substitute q w r).
Proof.
  intros Hv Hr. unfold Substitute. generalize (in_var_zero v). generalize poly_zero as p. induction (p_monos q) as [|m ms IH]; intros p Hp F; cbn [fold_left]; [exact Hp|].
  inversion F as [|? ? Om F']; subst. apply IH; [|exact F']. destruct (HasVariable m w).
  - apply in_var_subst_terms; auto; [apply in_var_const|]. intros t I. destruct Om as [E|(k & Pk & E)]; rewrite E in I; [destruct I|]. destruct I as [<-|[]]. auto.
  - apply in_var_padd; auto. destruct m as [c ts]. cbn [m_coef m_terms] in *. destruct Om as [E|(k & Pk & E)]; cbn [m_terms] in E; subst ts.
    + split; [|reflexivity]. constructor; [left; reflexivity|constructor].
    + split; [|reflexivity]. constructor; [right; exists k; auto|constructor].
Qed.
Lemma in_var_combined v p : in_var v p -> combined p -> (0 < v)%N -> good p.
Proof. intros [F U] C Hv. split; [|split; [exact C|intros _; eauto]]. eapply Forall_impl; [|exact F]. intros m; apply only_proper; auto. Qed.
(** Substituting in a sum of monomials keeps the documented shape. *)
Lemma good_padd a b : Forall proper (p_monos a) -> Forall proper (p_monos b) -> good (padd a b).
Proof. intros A B. apply unique_good. cbn [p_monos]. apply Forall_app; auto. Qed.
Lemma good_Substitute v w r q : (0 < v)%N -> in_var v r -> Forall (only v) (p_monos q) -> good (Substitute q w r).
Proof.
  intros Hv Hr F. pose proof (in_var_Substitute v w r q Hv Hr F) as IV. apply (in_var_combined v); auto. clear IV. unfold Substitute.
  assert (C0 : combined poly_zero) by constructor. assert (I0 := in_var_zero v). revert C0 I0 F. generalize poly_zero as p. induction (p_monos q) as [|m ms IH]; intros p C0 I0 F; cbn [fold_left]; [exact C0|].
  inversion F as [|? ? Om F']; subst.
  assert (Pr : forall x, in_var v x -> Forall proper (p_monos x)) by (intros x [Fx _]; eapply Forall_impl; [|exact Fx]; intros ?; apply only_proper; auto).
  assert (X : in_var v (if HasVariable m w then subst_terms w r (m_terms m) (poly_const (m_coef m)) p else padd p (poly_terms (m_coef m) (m_terms m))) /\
              combined (if HasVariable m w then subst_terms w r (m_terms m) (poly_const (m_coef m)) p else padd p (poly_terms (m_coef m) (m_terms m)))).
  { destruct (HasVariable m w).
    - assert (Ht : forall t, In t (m_terms m) -> t_var t = v /\ (0 < t_pow t)%nat).
      { intros t I. destruct Om as [E|(k & Pk & E)]; rewrite E in I; [destruct I|]. destruct I as [<-|[]]. auto. }
      split; [apply in_var_subst_terms; auto; apply in_var_const|].
      assert (Im : in_var v (poly_const (m_coef m))) by apply in_var_const. revert Im C0 I0 Ht. generalize (poly_const (m_coef m)) as m0. generalize p as p0. clear - Hv Hr Pr.
      induction (m_terms m) as [|t ts IH]; intros p0 m0 Im C0 I0 Ht; cbn [subst_terms]; [exact C0|].
      assert (X : in_var v (if N.eqb (t_var t) w then pmul m0 (ppow r (t_pow t)) else pmul m0 (poly_terms 1 [t]))).
      { destruct (Ht t (or_introl eq_refl)) as [Ev Pt]. destruct (N.eqb (t_var t) w); apply in_var_pmul; auto; [apply in_var_ppow; auto|].
        split; [|reflexivity]. constructor; [|constructor]. right. exists (t_pow t). destruct t; cbn in *. subst. auto. }
      cbv zeta. apply IH; [exact X| |apply in_var_padd; auto|intros; apply Ht; right; auto]. apply good_padd; auto.
    - assert (Y : in_var v (poly_terms (m_coef m) (m_terms m))).
      { destruct m as [c ts]. cbn [m_coef m_terms] in *. destruct Om as [E|(k & Pk & E)]; cbn [m_terms] in E; subst ts.
        + split; [|reflexivity]. constructor; [left; reflexivity|constructor].
        + split; [|reflexivity]. constructor; [right; exists k; auto|constructor]. }
      split; [apply in_var_padd; auto|]. apply good_padd; auto. }
  destruct X as [X1 X2]. apply IH; auto.
Qed.

Lemma reverse_entry_ok h q : good q -> p_univ q = true -> exists q', reverse_entry h q = Ok q' /\ good q' /\ p_univ q' = true /\ forall u, curve q' u == curve q (h - u).
Proof.
  intros G U. unfold reverse_entry. destruct (Nat.eqb_spec (GetDegree q) 0) as [D|D].
  - exists q. split; [reflexivity|]. split; [auto|]. split; [auto|]. intros u. apply degree_zero_curve; auto.
  - destruct G as (P & C & O). destruct (O U) as (v & Hv & F).
    destruct (degree_fold (p_monos q) 0) as (_ & _ & B). fold (GetDegree q) in B. destruct B as [B|(m & I & B)]; [congruence|].
    assert (Oc : occurs v q).
    { rewrite Forall_forall in F. destruct (F m I) as [E|(k & Pk & E)].
      - exfalso. apply D. rewrite B, (only_degree v m (F m I)). unfold pw. rewrite E. reflexivity.
      - exists m, (Term v k). rewrite E. simpl. auto. }
    destruct (variables_listed q) as [VL _]. destruct (GetVariables q) as [|w l] eqn:EV; [apply VL in Oc; destruct Oc|].
    assert (w = v) by (apply (var_occurs_only v q); auto; apply VL; left; auto). subst w. eexists. split; [reflexivity|].
    assert (IR : in_var v (scalar_psub h (poly_var 1 v))).
    { apply constant_in_var; [auto|]. apply (same_terms_in_var v (poly_var 1 v)); [apply map_coef_terms|reflexivity|]. split; [|reflexivity]. constructor; [|constructor]. right. exists 1%nat. auto. }
    assert (GS : good (Substitute q v (scalar_psub h (poly_var 1 v)))) by (apply (good_Substitute v); auto).
    pose proof (in_var_Substitute v v _ q Hv IR F) as [FS US].
    split; [exact GS|]. split; [exact US|]. intros u.
    assert (PR : Forall proper (p_monos (scalar_psub h (poly_var 1 v)))) by (destruct IR as [FR _]; eapply Forall_impl; [|exact FR]; intros ?; apply only_proper; auto).
    unfold curve at 1. rewrite (substitute_means q v _ P PR).
    + rewrite (only_value v q _ F). unfold put. rewrite N.eqb_refl. apply curve_proper. unfold scalar_psub. rewrite padd_scalar_value. unfold value. cbn. unfold mval. cbn. ring.
    + intros m' I' (t' & J & _). rewrite Forall_forall in F. destruct (F m' I') as [E|(k & _ & E)]; [|rewrite E; reflexivity].
      rewrite E in J. destruct J.
Qed.
