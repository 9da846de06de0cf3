From Coq Require Import ZArith QArith Qabs Bool Lia Lqa.
From Coq Require Import Floats.SpecFloat.
From Verif Require Import Base Scalar_Model Scalar_Spec.

(** * RangeValidator *)
Section Range.
Open Scope Q_scope.

Lemma RangeValidator_ok relative mn mx tol eps r :
  RangeValidator relative mn mx tol eps = Ok r ->
  v_min r = mn /\ v_max r = mx /\ v_tol r = tol /\ v_eps r == (if relative then (mx - mn) * eps else eps) /\
  0 < tol /\ 0 <= v_eps r /\ v_eps r <= tol /\ v_eps r <= mx - mn.
Proof.
  unfold RangeValidator, throw_unless.
  destruct (Qltb_spec 0 tol) as [H1|]; [|discriminate].
  set (e := if relative then (mx - mn) * eps else eps).
  destruct (Qleb_spec 0 e) as [H2|]; [|discriminate].
  destruct (Qleb_spec e tol) as [H3|]; [|discriminate]. cbn [andb].
  destruct (Qleb_spec (mn + e) mx) as [H4|]; [|discriminate].
  destruct (Qleb_spec mn (mx - e)) as [H5|]; [|discriminate].
  intro E; inversion E; subst r; cbn. repeat split; auto; try lra; reflexivity.
Qed.

Lemma RangeValidator_outcome (relative : bool) mn mx tol eps :
  let e := if relative then (mx - mn) * eps else eps in
  (0 < tol /\ 0 <= e /\ e <= tol /\ e <= mx - mn /\ RangeValidator relative mn mx tol eps = Ok (mk_validator mn mx tol e)) \/
  (~ (0 < tol /\ 0 <= e /\ e <= tol /\ e <= mx - mn) /\ RangeValidator relative mn mx tol eps = Throw).
Proof.
  intro e. unfold RangeValidator, throw_unless. fold e.
  destruct (Qltb_spec 0 tol) as [H1|H1]; [|right; split; [|reflexivity]; intros (A & B & C & D); lra].
  destruct (Qleb_spec 0 e) as [H2|H2]; [|right; split; [|reflexivity]; intros (A & B & C & D); lra].
  destruct (Qleb_spec e tol) as [H3|H3]; cbn [andb]; [|right; split; [|reflexivity]; intros (A & B & C & D); lra].
  destruct (Qleb_spec (mn + e) mx) as [H4|H4]; [|right; split; [|reflexivity]; intros (A & B & C & D); lra].
  destruct (Qleb_spec mn (mx - e)) as [H5|H5]; [|right; split; [|reflexivity]; intros (A & B & C & D); lra].
  left. repeat split; auto; lra.
Qed.

Lemma Qabs_diff_le x r y : (x <= r /\ r <= y) \/ (y <= r /\ r <= x) -> Qabs (x - r) <= Qabs (x - y).
Proof.
  intros [[A B]|[A B]].
  - rewrite !Qabs_neg by lra. lra.
  - rewrite !Qabs_pos by lra. lra.
Qed.

Lemma validate_ok r s : 2 * v_eps r <= v_max r - v_min r ->
  (v_min r - v_tol r <= s /\ s <= v_max r + v_tol r /\
   exists x, validate r s = Ok x /\ v_min r + v_eps r <= x /\ x <= v_max r - v_eps r /\
     (v_min r + v_eps r <= s -> s <= v_max r - v_eps r -> x = s) /\
     forall y, v_min r + v_eps r <= y -> y <= v_max r - v_eps r -> Qabs (s - x) <= Qabs (s - y)) \/
  (~ (v_min r - v_tol r <= s /\ s <= v_max r + v_tol r) /\ validate r s = Throw).
Proof.
  intro H. unfold validate, throw_unless.
  destruct (Qleb_spec (v_min r - v_tol r) s) as [H1|H1]; [|right; split; [|reflexivity]; intros (A & B); lra].
  destruct (Qleb_spec s (v_max r + v_tol r)) as [H2|H2]; cbn [andb]; [|right; split; [|reflexivity]; intros (A & B); lra].
  left. split; [exact H1|]. split; [exact H2|]. unfold clamp.
  destruct (Qltb_spec (v_max r - v_eps r) (v_min r + v_eps r)) as [H3|H3]; [lra|].
  destruct (Qltb_spec s (v_min r + v_eps r)) as [H4|H4].
  - eexists; split; [reflexivity|]. split; [lra|]. split; [lra|]. split; [lra|].
    intros y Y1 Y2. apply Qabs_diff_le. left. lra.
  - destruct (Qltb_spec (v_max r - v_eps r) s) as [H5|H5].
    + eexists; split; [reflexivity|]. split; [lra|]. split; [lra|]. split; [lra|].
      intros y Y1 Y2. apply Qabs_diff_le. right. lra.
    + eexists; split; [reflexivity|]. split; [lra|]. split; [lra|]. split; [auto|].
      intros y Y1 Y2. apply Qabs_diff_le. destruct (Qlt_le_dec s y); [left|right]; lra.
Qed.
End Range.

(** * Doubles *)
Open Scope Z_scope.
Lemma digits_bounds m : 2 ^ (Z.pos (digits2_pos m) - 1) <= Z.pos m < 2 ^ Z.pos (digits2_pos m).
Proof.
  induction m as [m IH|m IH|]; cbn [digits2_pos]; [| |simpl; lia];
    set (d := Z.pos (digits2_pos m)) in *;
    assert (P : 0 < d) by (unfold d; lia);
    replace (Z.pos (Pos.succ (digits2_pos m))) with (1 + d) by (unfold d; lia);
    replace (1 + d - 1) with (1 + (d - 1)) by lia;
    rewrite !Z.pow_add_r by lia; change (2 ^ 1) with 2;
    [rewrite (Pos2Z.inj_xI m)|rewrite (Pos2Z.inj_xO m)]; lia.
Qed.

Lemma valid_exp m e s : is_double (S754_finite s m e) ->
  -1074 <= e /\ Z.pos m < 2 ^ 53 /\ (-1074 < e -> 2 ^ 52 <= Z.pos m).
Proof.
  unfold is_double, valid_binary, bounded, canonical_mantissa, fexp, emin.
  rewrite andb_true_iff. intros [A _]. apply Zeq_bool_eq in A.
  pose proof (digits_bounds m) as [B C]. set (d := Z.pos (digits2_pos m)) in *.
  assert (d <= 53) by lia. split; [lia|]. split.
  - apply Z.lt_le_trans with (2 ^ d); auto. apply Z.pow_le_mono_r; lia.
  - intro H1. assert (d = 53) by lia. rewrite H0 in B. exact B.
Qed.

Lemma magnitude_lt m1 e1 m2 e2 s1 s2 :
  is_double (S754_finite s1 m1 e1) -> is_double (S754_finite s2 m2 e2) -> e1 < e2 ->
  Z.pos m1 * 2 ^ (e1 + 1074) < Z.pos m2 * 2 ^ (e2 + 1074).
Proof.
  intros H1 H2 L. apply valid_exp in H1. apply valid_exp in H2.
  destruct H1 as (A1 & A2 & _), H2 as (B1 & _ & B3). specialize (B3 ltac:(lia)).
  apply Z.lt_le_trans with (2 ^ 53 * 2 ^ (e1 + 1074)).
  - apply Z.mul_lt_mono_pos_r; auto. apply Z.pow_pos_nonneg; lia.
  - replace (e2 + 1074) with ((e2 - e1 - 1) + 1 + (e1 + 1074)) by lia.
    set (k := e1 + 1074) in *. assert (0 <= k) by (unfold k; lia).
    rewrite (Z.pow_add_r 2 (e2 - e1 - 1 + 1) k), (Z.pow_add_r 2 (e2 - e1 - 1) 1) by lia.
    assert (1 <= 2 ^ (e2 - e1 - 1)) by (assert (0 < 2 ^ (e2 - e1 - 1)) by (apply Z.pow_pos_nonneg; lia); lia).
    assert (0 < 2 ^ k) by (apply Z.pow_pos_nonneg; lia).
    rewrite Z.mul_assoc. apply Z.mul_le_mono_nonneg_r; [lia|].
    change (2 ^ 53) with (2 ^ 52 * 2). change (2 ^ 1) with 2. nia.
Qed.

Definition ext_cmp (a b : ext) : comparison :=
  match a, b with
  | NInf, NInf => Eq | NInf, _ => Lt
  | PInf, PInf => Eq | PInf, _ => Gt
  | Fin _, NInf => Gt | Fin _, PInf => Lt
  | Fin x, Fin y => (x ?= y)
  end.

Definition opt_cmp (a b : option ext) : option comparison :=
  match a, b with Some u, Some v => Some (ext_cmp u v) | _, _ => None end.

Lemma pos_value m e : 0 <= e + 1074 -> 0 < Z.pos m * 2 ^ (e + 1074).
Proof. intro H. assert (0 < 2 ^ (e + 1074)) by (apply Z.pow_pos_nonneg; lia). lia. Qed.

Lemma SFcompare_value x y : is_double x -> is_double y -> SFcompare x y = opt_cmp (value x) (value y).
Proof.
  intros Hx Hy.
  destruct x as [sx|sx| |sx mx ex]; destruct y as [sy|sy| |sy my ey]; cbn [SFcompare value opt_cmp];
    try (destruct sx); try (destruct sy); try reflexivity;
    repeat match goal with
    | H : is_double (S754_finite ?s ?m ?e) |- _ =>
        lazymatch goal with K : 0 < Z.pos m * 2 ^ (e + 1074) |- _ => fail
        | _ => assert (0 < Z.pos m * 2 ^ (e + 1074)) by (apply pos_value; apply valid_exp in H; lia) end
    end; cbn [ext_cmp opt_cmp]; f_equal; symmetry;
    try (apply Z.compare_lt_iff; lia); try (apply Z.compare_gt_iff; lia); try (apply Z.compare_eq_iff; lia).
  - destruct (Z.compare_spec ex ey) as [E|L|L].
    + subst ey. fold (Pos.compare mx my). unfold Pos.compare_cont.
      change (Pos.compare_cont Eq mx my) with (mx ?= my)%positive.
      destruct (Pos.compare_spec mx my) as [E|L|L]; cbn [CompOpp].
      * subst. apply Z.compare_eq_iff. lia.
      * apply Z.compare_gt_iff. assert (0 < 2 ^ (ex + 1074)) by (apply valid_exp in Hx; apply Z.pow_pos_nonneg; lia). nia.
      * apply Z.compare_lt_iff. assert (0 < 2 ^ (ex + 1074)) by (apply valid_exp in Hx; apply Z.pow_pos_nonneg; lia). nia.
    + apply Z.compare_gt_iff. pose proof (magnitude_lt _ _ _ _ _ _ Hx Hy L). lia.
    + apply Z.compare_lt_iff. pose proof (magnitude_lt _ _ _ _ _ _ Hy Hx L). lia.
  - destruct (Z.compare_spec ex ey) as [E|L|L].
    + subst ey.
      change (Pos.compare_cont Eq mx my) with (mx ?= my)%positive.
      destruct (Pos.compare_spec mx my) as [E|L|L]; cbn [CompOpp].
      * subst. apply Z.compare_eq_iff. lia.
      * apply Z.compare_lt_iff. assert (0 < 2 ^ (ex + 1074)) by (apply valid_exp in Hx; apply Z.pow_pos_nonneg; lia). nia.
      * apply Z.compare_gt_iff. assert (0 < 2 ^ (ex + 1074)) by (apply valid_exp in Hx; apply Z.pow_pos_nonneg; lia). nia.
    + apply Z.compare_lt_iff. pose proof (magnitude_lt _ _ _ _ _ _ Hx Hy L). lia.
    + apply Z.compare_gt_iff. pose proof (magnitude_lt _ _ _ _ _ _ Hy Hx L). lia.
Qed.

Lemma ext_cmp_le u v : ext_cmp u v <> Gt <-> ext_le u v.
Proof.
  destruct u, v; simpl; intuition congruence.
Qed.
Lemma ext_cmp_lt u v : ext_cmp u v = Lt <-> ~ ext_le v u.
Proof.
  destruct u, v; simpl; try (intuition congruence). rewrite Z.compare_lt_iff. lia.
Qed.

Lemma SFleb_value x y : is_double x -> is_double y -> (SFleb x y = true <-> le_double x y).
Proof.
  intros Hx Hy. unfold SFleb, le_double. rewrite SFcompare_value by auto.
  destruct (value x) as [u|], (value y) as [v|]; cbn [opt_cmp].
  - pose proof (ext_cmp_le u v) as E. split.
    + intro H. exists u, v. repeat split; auto. apply E. destruct (ext_cmp u v); congruence.
    + intros (u' & v' & A & B & C). inversion A; inversion B; subst. apply E in C. destruct (ext_cmp u' v'); congruence.
  - split; [discriminate|]. intros (u' & v' & A & B & C). discriminate.
  - split; [discriminate|]. intros (u' & v' & A & B & C). discriminate.
  - split; [discriminate|]. intros (u' & v' & A & B & C). discriminate.
Qed.

Lemma SFltb_value x y : is_double x -> is_double y ->
  (SFltb x y = true <-> (exists u v, value x = Some u /\ value y = Some v /\ ~ ext_le v u)).
Proof.
  intros Hx Hy. unfold SFltb. rewrite SFcompare_value by auto.
  destruct (value x) as [u|], (value y) as [v|]; cbn [opt_cmp].
  - pose proof (ext_cmp_lt u v) as E. split.
    + intro H. exists u, v. repeat split; auto. apply E. destruct (ext_cmp u v); congruence.
    + intros (u' & v' & A & B & C). inversion A; inversion B; subst. apply E in C. rewrite C. reflexivity.
  - split; [discriminate|]. intros (u' & v' & A & B & C). discriminate.
  - split; [discriminate|]. intros (u' & v' & A & B & C). discriminate.
  - split; [discriminate|]. intros (u' & v' & A & B & C). discriminate.
Qed.

Lemma ext_le_total u v : ext_le u v \/ ext_le v u.
Proof. destruct u, v; simpl; auto. lia. Qed.
Lemma ext_le_refl u : ext_le u u.
Proof. destruct u; simpl; auto. lia. Qed.

Lemma saturate_ok x mn mx : is_double x -> is_double mn -> is_double mx ->
  (~ le_double mn mx /\ saturate x mn mx = Throw) \/
  (le_double mn mx /\ exists r, saturate x mn mx = Ok r /\
     (value x = None -> r = x) /\
     (value x <> None ->
        le_double mn r /\ le_double r mx /\
        (le_double mn x -> le_double x mx -> r = x) /\
        forall y, is_double y -> le_double mn y -> le_double y mx ->
          (le_double x r /\ le_double r y) \/ (le_double y r /\ le_double r x))).
Proof.
  intros Dx Dn Dm. unfold saturate, throw_unless.
  destruct (SFleb mn mx) eqn:E.
  2:{ left. split; [|reflexivity]. intro H. apply SFleb_value in H; auto. congruence. }
  apply SFleb_value in E; auto. right. split; [exact E|].
  destruct E as (n & m & En & Em & Lnm).
  destruct (SFltb x mn) eqn:E1.
  - apply SFltb_value in E1; auto. destruct E1 as (u & v & A & B & C).
    rewrite En in B. inversion B; subst v. exists mn. split; [reflexivity|].
    split; [congruence|]. intros _.
    assert (Lun : ext_le u n) by (destruct (ext_le_total u n); [auto|contradiction]).
    split; [exists n, n; auto using ext_le_refl|]. split; [exists n, m; auto|]. split.
    + intros (n' & u' & K1 & K2 & K3). rewrite En in K1. rewrite A in K2. inversion K1; inversion K2; subst. contradiction.
    + intros y Dy Hy _. left. split; [exists u, n; auto|exact Hy].
  - destruct (SFltb mx x) eqn:E2.
    + apply SFltb_value in E2; auto. destruct E2 as (v & u & B & A & C).
      rewrite Em in B. inversion B; subst v. exists mx. split; [reflexivity|].
      split; [congruence|]. intros _.
      assert (Lmu : ext_le m u) by (destruct (ext_le_total m u); [auto|contradiction]).
      split; [exists n, m; auto|]. split; [exists m, m; auto using ext_le_refl|]. split.
      * intros _ (u' & m' & K1 & K2 & K3). rewrite Em in K2. rewrite A in K1. inversion K1; inversion K2; subst. contradiction.
      * intros y Dy _ Hy. right. split; [exact Hy|exists m, u; auto].
    + exists x. split; [reflexivity|]. split; [reflexivity|]. intro Nx.
      destruct (value x) as [u|] eqn:A; [|congruence].
      assert (K1 : ext_le n u).
      { destruct (ext_le_total n u) as [|K]; auto.
        destruct (SFltb_value x mn Dx Dn) as [_ Q]. destruct (ext_le_total u n); [|auto].
        assert (D : ext_le n u \/ ~ ext_le n u) by (destruct n, u; simpl; auto; lia).
        destruct D as [D|D]; [exact D|]. rewrite Q in E1; [discriminate|]. exists u, n. auto. }
      assert (K2 : ext_le u m).
      { destruct (SFltb_value mx x Dm Dx) as [_ Q].
        assert (D : ext_le u m \/ ~ ext_le u m) by (destruct m, u; simpl; auto; lia).
        destruct D as [D|D]; [exact D|]. rewrite Q in E2; [discriminate|]. exists m, u. auto. }
      split; [exists n, u; auto|]. split; [exists u, m; auto|]. split; [auto|].
      intros y Dy (n' & w & _ & Ew & _) _.
      destruct (ext_le_total u w) as [K|K]; [left|right]; split; eexists; eexists; repeat split; eauto using ext_le_refl.
Qed.
