(** Lemmas about Poly_Model: evaluation, substitution, derivatives, integrals, coefficients. *)
From Coq Require Import List QArith Qabs NArith Bool Arith Lia Lqa Permutation.
From Verif Require Import Base Maps Poly_Model Poly_Spec Poly_Proofs Poly_Proofs2.
Import ListNotations.

(** ** EvaluateMultivariate *)
Lemma reads_find vals rho v : reads vals rho v = match mfind N.eqb v vals with Some x => x | None => rho v end.
Proof.
  unfold reads. induction vals as [|[k x] r IH]; simpl; [reflexivity|]. destruct (N.eqb v k); [reflexivity|exact IH].
Qed.
Lemma mfind_in (vals : list (N * Q)) v : mfind N.eqb v vals <> None <-> In v (map fst vals).
Proof.
  induction vals as [|[k x] r IH]; simpl; [split; [congruence|tauto]|]. destruct (N.eqb_spec v k) as [->|Nk].
  - split; [auto|discriminate].
  - rewrite IH. split; [auto|]. intros [->|H]; [congruence|auto].
Qed.
Lemma eval_terms_ok vals rho ts : forall v x, eval_terms vals v ts = Ok x -> x == v * tval (reads vals rho) ts.
Proof.
  induction ts as [|t r IH]; intros v x; cbn [eval_terms tval]; [injection 1 as <-; ring|].
  rewrite reads_find. destruct (mfind N.eqb (t_var t) vals); [|discriminate]. intros H. apply IH in H. rewrite H, qpow_power. ring.
Qed.
Lemma eval_terms_def vals ts : forall v, (forall t, In t ts -> In (t_var t) (map fst vals)) -> exists x, eval_terms vals v ts = Ok x.
Proof.
  induction ts as [|t r IH]; intros v H; cbn [eval_terms]; [eauto|].
  assert (M : mfind N.eqb (t_var t) vals <> None) by (apply mfind_in, H; left; auto). destruct (mfind N.eqb (t_var t) vals); [|congruence].
  apply IH. intros; apply H; right; auto.
Qed.
Lemma eval_terms_throw vals ts : forall v t, In t ts -> ~ In (t_var t) (map fst vals) -> eval_terms vals v ts = Throw.
Proof.
  induction ts as [|u r IH]; intros v t H F; [destruct H|]. destruct H as [->|H]; cbn [eval_terms].
  - destruct (mfind N.eqb (t_var t) vals) eqn:E; [|reflexivity]. exfalso. apply F. apply mfind_in. congruence.
  - destruct (mfind N.eqb (t_var u) vals); [|reflexivity]. eapply IH; eauto.
Qed.
Lemma eval_terms_noub vals ts : forall v, eval_terms vals v ts <> UB.
Proof. induction ts as [|t r IH]; intros v; cbn [eval_terms]; [discriminate|]. destruct (mfind _ _ _); [apply IH|discriminate]. Qed.
Lemma eval_monos_ok vals rho ms : forall v x, eval_monos vals v ms = Ok x -> x == v + sumval (reads vals rho) ms.
Proof.
  induction ms as [|m r IH]; intros v x; cbn [eval_monos sumval]; [injection 1 as <-; ring|].
  destruct (eval_terms vals (m_coef m) (m_terms m)) as [y| |] eqn:E; cbn [obind]; try discriminate. intros H.
  apply IH in H. apply (eval_terms_ok vals rho) in E. rewrite H, E. unfold mval. ring.
Qed.
Lemma eval_monos_def vals ms : forall v, (forall m t, In m ms -> In t (m_terms m) -> In (t_var t) (map fst vals)) -> exists x, eval_monos vals v ms = Ok x.
Proof.
  induction ms as [|m r IH]; intros v H; cbn [eval_monos]; [eauto|].
  destruct (eval_terms_def vals (m_terms m) (m_coef m)) as [y ->]; [intros; eapply H; eauto; left; auto|]. cbn [obind].
  apply IH. intros; eapply H; eauto. right; auto.
Qed.
Lemma eval_monos_throw vals ms : forall v m t, In m ms -> In t (m_terms m) -> ~ In (t_var t) (map fst vals) -> eval_monos vals v ms = Throw.
Proof.
  induction ms as [|u r IH]; intros v m t H Ht F; [destruct H|]. destruct H as [->|H]; cbn [eval_monos].
  - rewrite (eval_terms_throw vals _ _ t Ht F). reflexivity.
  - destruct (eval_terms vals (m_coef u) (m_terms u)) eqn:E; cbn [obind]; [eapply IH; eauto|reflexivity|]. exfalso. eapply eval_terms_noub; eauto.
Qed.

(** ** EvaluatePartial, Subs *)
Lemma partial_fold vals rho ts : forall c us,
  let r := fold_left (fun (acc : Q * list term) t => match mfind N.eqb (t_var t) vals with
    | Some x => (fst acc * qpow x (t_pow t), snd acc) | None => (fst acc, snd acc ++ [t]) end) ts (c, us) in
  fst r * tval rho (snd r) == c * tval rho us * tval (reads vals rho) ts /\
  exists ws, snd r = us ++ ws /\ ws = filter (fun t => match mfind N.eqb (t_var t) vals with Some _ => false | None => true end) ts.
Proof.
  induction ts as [|t r IH]; intros c us; cbn [fold_left fst snd].
  - cbn [tval]. split; [ring|]. exists []. rewrite app_nil_r. auto.
  - cbn [tval filter]. rewrite reads_find. destruct (mfind N.eqb (t_var t) vals) as [x|] eqn:E; cbn [fst snd] in *.
    + destruct (IH (c * qpow x (t_pow t)) us) as [V (ws & W1 & W2)]. split; [|eauto]. rewrite V, qpow_power. ring.
    + destruct (IH c (us ++ [t])) as [V (ws & W1 & W2)]. split.
      * rewrite V, tval_app. cbn [tval]. ring.
      * exists (t :: ws). rewrite W1, <- app_assoc, W2. auto.
Qed.
Lemma partial_mono_value vals rho m : mval rho (partial_mono vals m) == mval (reads vals rho) m.
Proof.
  unfold partial_mono. pose proof (partial_fold vals rho (m_terms m) (m_coef m) []) as [V _]. cbv zeta in V.
  destruct (fold_left _ _ _) as [c ts]. cbn [fst snd tval] in V. unfold mval. cbn [m_coef m_terms]. rewrite V. ring.
Qed.
Lemma partial_mono_terms vals m : m_terms (partial_mono vals m) = filter (fun t => match mfind N.eqb (t_var t) vals with Some _ => false | None => true end) (m_terms m).
Proof.
  unfold partial_mono. pose proof (partial_fold vals (fun _ => 0) (m_terms m) (m_coef m) []) as [_ (ws & W1 & W2)].
  destruct (fold_left _ _ _) as [c ts]. cbn [snd app] in W1. cbn [m_terms]. congruence.
Qed.
Lemma nodup_filter_map (f : term -> bool) ts : NoDup (map t_var ts) -> NoDup (map t_var (filter f ts)).
Proof.
  induction ts as [|t r IH]; simpl; [auto|]. inversion 1 as [|? ? I D]; subst. destruct (f t); [|auto]. simpl. constructor; [|auto].
  intros J. apply I. apply in_map_iff in J. destruct J as (u & E & J). apply filter_In in J. apply in_map_iff. exists u. tauto.
Qed.
Lemma partial_distinct vals m : distinct m -> distinct (partial_mono vals m).
Proof. unfold distinct. rewrite partial_mono_terms. apply nodup_filter_map. Qed.
Lemma partial_proper vals m : proper m -> proper (partial_mono vals m).
Proof.
  intros [D P]. split; [apply partial_distinct; auto|]. rewrite partial_mono_terms. intros t I. apply filter_In in I. apply P, I.
Qed.
Lemma partial_sum vals rho ms : sumval rho (map (partial_mono vals) ms) == sumval (reads vals rho) ms.
Proof. induction ms as [|m r IH]; simpl; [reflexivity|]. now rewrite IH, partial_mono_value. Qed.

Lemma subs_terms_value rho a b ts :
  tval rho (map (fun t => if N.eqb (t_var t) a then Term b (t_pow t) else t) ts) == tval (put rho a (rho b)) ts.
Proof.
  induction ts as [|t r IH]; cbn [map tval]; [reflexivity|]. rewrite IH. unfold put at 2. destruct (N.eqb (t_var t) a); reflexivity.
Qed.
Lemma subs_sum rho a b ms :
  sumval rho (map (fun m => Mono (m_coef m) (map (fun t => if N.eqb (t_var t) a then Term b (t_pow t) else t) (m_terms m))) ms) == sumval (put rho a (rho b)) ms.
Proof. induction ms as [|m r IH]; cbn [map sumval]; [reflexivity|]. rewrite IH. unfold mval. cbn [m_coef m_terms]. rewrite subs_terms_value. reflexivity. Qed.

(** ** Substitute *)
Lemma has_variable m v : HasVariable m v = true <-> exists t, In t (m_terms m) /\ t_var t = v.
Proof. unfold HasVariable. rewrite existsb_exists. split; intros (t & I & E); exists t; split; auto; apply N.eqb_eq; auto. Qed.
Definition solo (v : N) (m : mono) : Prop := (exists t, In t (m_terms m) /\ t_var t = v) -> List.length (m_terms m) = 1%nat.
Lemma subst_step rho v r p m : Forall proper (p_monos r) -> Forall proper (p_monos p) -> proper m -> solo v m ->
  let p' := if HasVariable m v then subst_terms v r (m_terms m) (poly_const (m_coef m)) p else padd p (poly_terms (m_coef m) (m_terms m)) in
  value rho p' == value rho p + mval (put rho v (value rho r)) m /\ Forall proper (p_monos p').
Proof.
  intros Pr Pp Pm So. cbv zeta. destruct (HasVariable m v) eqn:H.
  - apply has_variable in H. pose proof (So H) as L. destruct H as (t & I & E).
    destruct (m_terms m) as [|u [|u' ts]] eqn:T; try discriminate. destruct I as [->|[]]. cbn [subst_terms]. rewrite E, N.eqb_refl.
    assert (Pc : Forall proper (p_monos (ppow r (t_pow t)))) by (apply ppow_fuel_distinct; auto; apply proper_distinct; auto).
    assert (Pq : Forall proper (p_monos (pmul (poly_const (m_coef m)) (ppow r (t_pow t))))).
    { apply (unique_good (Poly _ _)). cbn [p_monos]. apply mul_all_proper; [apply const_proper|exact Pc]. }
    split.
    + rewrite padd_value by (apply proper_distinct; auto). rewrite pmul_value by (apply proper_distinct, const_proper).
      unfold ppow. rewrite ppow_fuel_value by (auto; lia). unfold value at 2. cbn [p_monos poly_const sumval]. unfold mval. rewrite T. cbn [m_coef m_terms tval].
      unfold put. rewrite E, N.eqb_refl. ring.
    + apply (unique_good (Poly _ _)). cbn [p_monos]. apply Forall_app; auto.
  - destruct Pm as [D P]. rewrite poly_terms_distinct by exact D.
    assert (Pq : Forall proper [Mono (m_coef m) (m_terms m)]) by (constructor; [|constructor]; split; auto).
    split.
    + rewrite padd_value; [|apply proper_distinct; auto|apply proper_distinct; auto]. unfold value at 2. cbn [p_monos sumval]. unfold mval. cbn [m_coef m_terms].
      rewrite (tval_ext (put rho v (value rho r)) rho).
      { ring. }
      intros t I. unfold put. destruct (N.eqb_spec (t_var t) v) as [E|_]; [|reflexivity]. exfalso.
      assert (X : HasVariable m v = true) by (apply has_variable; eauto). congruence.
    + apply (unique_good (Poly _ _)). cbn [p_monos]. apply Forall_app; auto.
Qed.
Lemma substitute_fold rho v r ms : Forall proper (p_monos r) -> Forall proper ms -> Forall (solo v) ms -> forall p, Forall proper (p_monos p) ->
  let p' := fold_left (fun p sm => if HasVariable sm v then subst_terms v r (m_terms sm) (poly_const (m_coef sm)) p else padd p (poly_terms (m_coef sm) (m_terms sm))) ms p in
  value rho p' == value rho p + sumval (put rho v (value rho r)) ms /\ Forall proper (p_monos p').
Proof.
  intros Pr. induction ms as [|m ms IH]; intros Pm So p Pp; cbn [fold_left sumval].
  - split; [ring|auto].
  - inversion Pm; subst. inversion So; subst.
    destruct (subst_step rho v r p m) as [V P]; auto. destruct (IH ltac:(auto) ltac:(auto) _ P) as [V' P']. split; [|exact P'].
    rewrite V', V. ring.
Qed.

(** ** Slopes *)
Lemma slope_bound f x g : slope f x g -> exists B, 0 <= B /\ forall h, -(1) <= h <= 1 -> Qabs (f (x + h) - f x - h * g) <= B * (h * h).
Proof.
  intros [B H]. exists B. split; [|exact H]. pose proof (H 1 ltac:(lra)) as H1. pose proof (Qabs_nonneg (f (x + 1) - f x - 1 * g)). lra.
Qed.
Lemma slope_ext f f' x g g' : (forall y, f y == f' y) -> g == g' -> slope f x g -> slope f' x g'.
Proof.
  intros E G [B H]. exists B. intros h Hh. specialize (H h Hh).
  rewrite (Qabs_wd (f' (x + h) - f' x - h * g') (f (x + h) - f x - h * g)); [exact H|]. rewrite !E, G. reflexivity.
Qed.
Lemma slope_const c x : slope (fun _ => c) x 0.
Proof. exists 0. intros h _. rewrite (Qabs_wd _ 0) by ring. change (Qabs 0) with 0. lra. Qed.
Lemma slope_add f g x a b : slope f x a -> slope g x b -> slope (fun y => f y + g y) x (a + b).
Proof.
  intros [B H] [C K]. exists (B + C). intros h Hh. specialize (H h Hh). specialize (K h Hh).
  rewrite (Qabs_wd _ ((f (x + h) - f x - h * a) + (g (x + h) - g x - h * b))) by ring.
  eapply Qle_trans; [apply Qabs_triangle|]. lra.
Qed.
Lemma slope_scale f x a c : slope f x a -> slope (fun y => c * f y) x (c * a).
Proof.
  intros [B H]. exists (Qabs c * B). intros h Hh. specialize (H h Hh).
  rewrite (Qabs_wd _ (c * (f (x + h) - f x - h * a))) by ring. rewrite Qabs_Qmult, <- Qmult_assoc.
  rewrite (Qmult_comm (Qabs c)), (Qmult_comm (Qabs c)). apply Qmult_le_compat_r; [exact H|apply Qabs_nonneg].
Qed.
Lemma slope_times_id f x a : (forall y z, y == z -> f y == f z) -> slope f x a -> slope (fun y => y * f y) x (f x + x * a).
Proof.
  intros W H. apply slope_bound in H. destruct H as (B & HB & H). exists ((Qabs x + 1) * B + Qabs a). intros h Hh. specialize (H h Hh).
  rewrite (Qabs_wd _ ((x + h) * (f (x + h) - f x - h * a) + h * h * a)) by ring.
  eapply Qle_trans; [apply Qabs_triangle|]. rewrite !Qabs_Qmult.
  set (P := Qabs (f (x + h) - f x - h * a)) in *.
  assert (A1 : Qabs (x + h) <= Qabs x + 1).
  { eapply Qle_trans; [apply Qabs_triangle|]. assert (Qabs h <= 1) by (apply Qabs_Qle_condition; lra). lra. }
  assert (A2 : Qabs h * Qabs h == h * h).
  { rewrite <- Qabs_Qmult. apply Qabs_pos. destruct (Qlt_le_dec h 0); nra. }
  assert (P0 : 0 <= P) by apply Qabs_nonneg. pose proof (Qabs_nonneg x). pose proof (Qabs_nonneg a). pose proof (Qabs_nonneg (x + h)).
  rewrite A2. assert (Qabs (x + h) * P <= (Qabs x + 1) * (B * (h * h))).
  { apply Qle_trans with ((Qabs x + 1) * P); [apply Qmult_le_compat_r; auto|]. rewrite !(Qmult_comm (Qabs x + 1)). apply Qmult_le_compat_r; [auto|lra]. }
  lra.
Qed.
Definition qn (n : nat) : Q := inject_Z (Z.of_nat n).
Lemma qn_S n : qn (S n) == qn n + 1.
Proof. unfold qn. rewrite Nat2Z.inj_succ. unfold Z.succ. rewrite inject_Z_plus. reflexivity. Qed.
Lemma slope_power n x : slope (fun y => power y n) x (qn n * power x (n - 1)).
Proof.
  induction n as [|n IH].
  - eapply slope_ext; [| |apply (slope_const 1)]; [intros; reflexivity|]. unfold qn. simpl. ring.
  - apply (slope_ext (fun y => y * power y n) _ x (power x n + x * (qn n * power x (n - 1)))).
    + intros; reflexivity.
    + rewrite qn_S. replace (S n - 1)%nat with n by lia. destruct n as [|n]; [unfold qn; simpl; ring|].
      replace (S n - 1)%nat with n by lia. cbn [power]. ring.
    + apply slope_times_id; [intros; apply power_comp; auto|exact IH].
Qed.

(** ** Derivatives *)
Fixpoint ffact (d k : nat) : Q := match k with O => 1 | S k' => qn d * ffact (d - 1) k' end.
Lemma fall_ffact k : forall c d, fst (fall c d k) == c * ffact d k /\ snd (fall c d k) = (d - k)%nat.
Proof.
  induction k as [|k IH]; intros c d; cbn [fall ffact fst snd]; [split; [ring|lia]|].
  destruct (IH (c * inject_Z (Z.of_nat d)) (d - 1)%nat) as [A B]. split; [rewrite A; unfold qn; ring|lia].
Qed.
Lemma ffact_S k : forall d, ffact d (S k) == ffact d k * qn (d - k).
Proof.
  induction k as [|k IH]; intros d; cbn [ffact].
  - rewrite Nat.sub_0_r. ring.
  - change (qn (d - 1) * ffact (d - 1 - 1) k) with (ffact (d - 1) (S k)). rewrite IH.
    replace (d - 1 - k)%nat with (d - S k)%nat by lia. ring.
Qed.
Lemma ffact_zero d : forall k, (d < k)%nat -> ffact d k == 0.
Proof.
  intros k L. induction L as [|k L IH].
  - rewrite ffact_S, Nat.sub_diag. unfold qn. simpl. ring.
  - rewrite ffact_S, IH. ring.
Qed.
Definition pw (m : mono) : nat := match m_terms m with [] => O | t :: _ => t_pow t end.
(** The k-th derivative of a sum of monomials in one variable, at x. *)
Fixpoint dsum (k : nat) (ms : list mono) (x : Q) : Q :=
  match ms with [] => 0 | m :: r => m_coef m * ffact (pw m) k * power x (pw m - k) + dsum k r x end.
Lemma dsum_slope k ms x : slope (dsum k ms) x (dsum (S k) ms x).
Proof.
  induction ms as [|m r IH]; cbn [dsum]; [apply slope_const|].
  apply (slope_add (fun y => m_coef m * ffact (pw m) k * power y (pw m - k)) (dsum k r)); [|exact IH].
  eapply slope_ext; [| |apply (slope_scale (fun y => power y (pw m - k)) x (qn (pw m - k) * power x (pw m - k - 1)) (m_coef m * ffact (pw m) k)), slope_power].
  - intros; reflexivity.
  - rewrite ffact_S. replace (pw m - S k)%nat with (pw m - k - 1)%nat by lia. ring.
Qed.
Lemma derives_ext k f f' g g' : (forall x, f x == f' x) -> (forall x, g x == g' x) -> derives k f g -> derives k f' g'.
Proof.
  intros F G D. revert f' g' F G. induction D as [f g E|k f g h S D IH]; intros f' g' F G.
  - constructor. intros x. rewrite <- F, <- G. apply E.
  - apply (derives_S _ _ g).
    + intros x. eapply slope_ext; [exact F|reflexivity|apply S].
    + apply IH; [reflexivity|exact G].
Qed.
Lemma dsum_derives k ms : forall j, derives k (dsum j ms) (dsum (k + j) ms).
Proof.
  induction k as [|k IH]; intros j; [constructor; reflexivity|].
  apply (derives_S _ _ (dsum (S j) ms)); [intros x; apply dsum_slope|]. replace (S k + j)%nat with (k + S j)%nat by lia. apply IH.
Qed.
Lemma only_tval v m x : only v m -> tval (fun _ => x) (m_terms m) == power x (pw m).
Proof. unfold pw. intros [E|(k & _ & E)]; rewrite E; cbn [tval t_pow power]; ring. Qed.
Lemma dsum_curve v ms x : Forall (only v) ms -> sumval (fun _ => x) ms == dsum 0 ms x.
Proof.
  induction 1 as [|m r O _ IH]; cbn [sumval dsum]; [reflexivity|]. rewrite IH. unfold mval. rewrite (only_tval v m x O). cbn [ffact]. rewrite Nat.sub_0_r. ring.
Qed.
Lemma eval_fold x k ms : forall a, fold_left (eval_step x k) ms a == a + dsum k ms x.
Proof.
  induction ms as [|m r IH]; intros a; cbn [fold_left dsum]; [ring|]. rewrite IH. unfold eval_step. fold (pw m).
  destruct (Nat.ltb_spec (pw m) k) as [L|L].
  - rewrite ffact_zero by exact L. ring.
  - destruct (fall_ffact k (m_coef m) (pw m)) as [A B]. destruct (fall (m_coef m) (pw m) k) as [c d]. cbn [fst snd] in *. subst d.
    destruct (Nat.eqb_spec (pw m - k) 0) as [->|N0]; [cbn [power]; rewrite A; ring|].
    destruct (Nat.eqb_spec (pw m - k) 1) as [->|N1]; [cbn [power]; rewrite A; ring|]. rewrite qpow_power, A. ring.
Qed.
Lemma derive_mono_only v k m : (0 < k)%nat -> only v m -> Forall (only v) (derive_mono k m).
Proof.
  intros Hk [E|(j & Hj & E)]; unfold derive_mono; rewrite E; cbn [t_pow]; [constructor|].
  destruct (Nat.leb_spec k j); [|constructor]. destruct (fall_ffact k (m_coef m) j) as [_ B]. destruct (fall (m_coef m) j k) as [c d]. cbn [snd] in B. subst d.
  constructor; [|constructor]. destruct (Nat.ltb_spec (j - k) 1); [left; reflexivity|]. right. exists (j - k)%nat. split; [lia|reflexivity].
Qed.
Lemma derive_mono_sum v k m x : (0 < k)%nat -> only v m ->
  sumval (fun _ => x) (derive_mono k m) == m_coef m * ffact (pw m) k * power x (pw m - k).
Proof.
  intros Hk [E|(j & Hj & E)]; unfold derive_mono, pw; rewrite E; cbn [t_pow sumval].
  - rewrite ffact_zero by exact Hk. ring.
  - destruct (Nat.leb_spec k j) as [L|L]; [|rewrite ffact_zero by exact L; cbn [sumval]; ring].
    destruct (fall_ffact k (m_coef m) j) as [A B]. destruct (fall (m_coef m) j k) as [c d]. cbn [fst snd] in *. subst d. cbn [sumval]. unfold mval. cbn [m_coef m_terms].
    destruct (Nat.ltb_spec (j - k) 1) as [Z|Z]; cbn [tval t_var t_pow].
    + replace (j - k)%nat with O by lia. cbn [power]. rewrite A. ring.
    + rewrite A. ring.
Qed.
Lemma derive_sum v k ms x : (0 < k)%nat -> Forall (only v) ms -> sumval (fun _ => x) (flat_map (derive_mono k) ms) == dsum k ms x.
Proof.
  intros Hk. induction 1 as [|m r O _ IH]; cbn [flat_map dsum]; [reflexivity|]. rewrite sumval_app, IH, (derive_mono_sum v k m x Hk O). reflexivity.
Qed.
Lemma derive_only v k ms : (0 < k)%nat -> Forall (only v) ms -> Forall (only v) (flat_map (derive_mono k) ms).
Proof.
  intros Hk H. rewrite Forall_forall in *. intros m I. apply in_flat_map in I. destruct I as (x & Hx & Hm).
  pose proof (derive_mono_only v k x Hk (H _ Hx)) as F. rewrite Forall_forall in F. auto.
Qed.

(** Powers of the monomials of a combined polynomial in one variable. *)
Lemma only_alike v m m' : only v m -> only v m' -> pw m = pw m' -> alike m m'.
Proof.
  unfold alike, pw. intros [E|(k & Hk & E)] [E'|(k' & Hk' & E')]; rewrite E, E'; cbn [t_pow]; intros H; try lia; [constructor|]. rewrite H. constructor. constructor.
Qed.
Lemma alike_pw v m m' : only v m -> only v m' -> alike m m' -> pw m = pw m'.
Proof.
  unfold alike, pw. intros [E|(k & Hk & E)] [E'|(k' & Hk' & E')]; rewrite E, E'; intros P; try (apply Permutation_length in P; discriminate); [reflexivity|].
  apply Permutation_length_1 in P. injection P as ->. reflexivity.
Qed.
Lemma combined_powers v ms : Forall (only v) ms -> (ForallOrdPairs (fun a b => ~ alike a b) ms <-> NoDup (map pw ms)).
Proof.
  induction 1 as [|m r O F IH]; simpl; [split; constructor|]. rewrite Forall_forall in F. split.
  - intros H. inversion H as [|? ? A B]; subst. rewrite Forall_forall in A. constructor; [|apply IH; auto].
    intros I. apply in_map_iff in I. destruct I as (m' & E & I). apply (A m' I). apply only_alike with v; auto.
  - inversion 1 as [|? ? A B]; subst. constructor; [|apply IH; auto]. rewrite Forall_forall. intros m' I Al. apply A. apply in_map_iff. exists m'. split; [|auto].
    symmetry. apply (alike_pw v); auto.
Qed.
Lemma derive_powers v k ms : (0 < k)%nat -> Forall (only v) ms -> NoDup (map pw ms) -> NoDup (map pw (flat_map (derive_mono k) ms)).
Proof.
  intros Hk O.
  assert (E : forall ms, Forall (only v) ms -> map pw (flat_map (derive_mono k) ms) = map (fun n => n - k)%nat (filter (Nat.leb k) (map pw ms))).
  { clear ms O. induction 1 as [|m r Om _ IH]; [reflexivity|]. cbn [flat_map map filter]. rewrite map_app, IH.
    destruct Om as [E|(j & Hj & E)]; unfold derive_mono, pw at 1 3 4; rewrite E; cbn [t_pow].
    - destruct k; [lia|]. reflexivity.
    - destruct (Nat.leb k j) eqn:L; [|reflexivity]. apply Nat.leb_le in L. destruct (fall_ffact k (m_coef m) j) as [_ B]. destruct (fall (m_coef m) j k) as [c d]. cbn [snd] in B. subst d.
      cbn [map app]. f_equal. unfold pw. cbn [m_terms]. destruct (Nat.ltb_spec (j - k) 1); cbn [t_pow]; lia. }
  rewrite (E _ O). clear E O. induction (map pw ms) as [|n l IH]; cbn [filter]; [constructor|]. inversion 1 as [|? ? I D]; subst.
  destruct (Nat.leb_spec k n); [|auto]. cbn [map]. constructor; [|auto]. intros J. apply in_map_iff in J. destruct J as (n' & E & J). apply filter_In in J. destruct J as [J L].
  apply Nat.leb_le in L. apply I. replace n with n' by lia. exact J.
Qed.

(** ** Integral *)
Definition int_mono (v : N) (m : mono) : mono :=
  match m_terms m with
  | [] => Mono (m_coef m) [Term v 1]
  | t :: ts => Mono (m_coef m / inject_Z (Z.of_nat (t_pow t + 1))) (Term (t_var t) (t_pow t + 1) :: ts)
  end.
Lemma first_var_only v ms : Forall (only v) ms -> existsb (fun m => negb (is_constant m)) ms = true -> first_var ms = v.
Proof.
  unfold first_var. induction 1 as [|m r O _ IH]; cbn [existsb find]; [discriminate|].
  destruct O as [E|(k & _ & E)].
  - assert (C : is_constant m = true) by (unfold is_constant; rewrite E; reflexivity). rewrite C. exact IH.
  - assert (C : is_constant m = false) by (unfold is_constant; rewrite E; reflexivity). rewrite C. cbn [negb]. rewrite E. reflexivity.
Qed.
Lemma first_var_none ms : existsb (fun m => negb (is_constant m)) ms = false -> first_var ms = 0%N.
Proof.
  unfold first_var. induction ms as [|m r IH]; cbn [existsb find]; [reflexivity|]. destruct (negb (is_constant m)); [discriminate|]. exact IH.
Qed.
Lemma int_mono_only v m : only v m -> only v (int_mono v m) /\ is_constant (int_mono v m) = false /\ pw (int_mono v m) = S (pw m).
Proof.
  unfold int_mono, is_constant, pw. intros [E|(k & Hk & E)]; rewrite E; cbn [m_terms t_pow].
  - split; [right; exists 1%nat; auto|auto].
  - split; [right; exists (k + 1)%nat; split; [lia|reflexivity]|]. split; [reflexivity|lia].
Qed.
Lemma integrate_only v : (0 < v)%N -> forall todo done, Forall (only v) (done ++ todo) -> existsb (fun m => negb (is_constant m)) (done ++ todo) = true ->
  integrate done todo = Ok (done ++ map (int_mono v) todo).
Proof.
  intros Hv. induction todo as [|m r IH]; intros done O X; cbn [integrate map].
  - rewrite app_nil_r. reflexivity.
  - assert (Om : only v m) by (rewrite Forall_forall in O; apply O, in_or_app; right; left; auto).
    destruct (int_mono_only v m Om) as (O1 & C1 & _).
    assert (G : integrate (done ++ [int_mono v m]) r = Ok (done ++ int_mono v m :: map (int_mono v) r)).
    { rewrite IH.
      - rewrite <- app_assoc. reflexivity.
      - rewrite <- app_assoc. apply Forall_app in O. destruct O as [Oa Ob]. inversion Ob; subst. apply Forall_app; split; [auto|]. constructor; auto.
      - rewrite <- app_assoc, existsb_app. cbn [app existsb]. rewrite C1. cbn [negb orb]. apply Bool.orb_true_r. }
    destruct (m_terms m) as [|t ts] eqn:T.
    + rewrite (first_var_only v _ O X). destruct (N.ltb_spec v 1); [lia|]. cbn [negb throw_unless].
      unfold int_mono in G at 1. rewrite T in G. exact G.
    + unfold int_mono in G at 1. rewrite T in G. exact G.
Qed.
Lemma integrate_constant m r : is_constant m = true -> existsb (fun x => negb (is_constant x)) (m :: r) = false -> integrate [] (m :: r) = Throw.
Proof.
  intros C X. cbn [integrate]. unfold is_constant in C. destruct (m_terms m) eqn:T; [|discriminate]. cbn [app]. rewrite first_var_none by exact X. reflexivity.
Qed.
Lemma int_mono_sum v ms x : Forall (only v) ms -> slope (fun y => sumval (fun _ => y) (map (int_mono v) ms)) x (sumval (fun _ => x) ms).
Proof.
  induction 1 as [|m r O _ IH]; cbn [map sumval]; [apply slope_const|].
  apply (slope_add (fun y => mval (fun _ => y) (int_mono v m)) (fun y => sumval (fun _ => y) (map (int_mono v) r))); [|exact IH].
  destruct (int_mono_only v m O) as (O1 & _ & P1).
  eapply slope_ext; [| |apply (slope_scale (fun y => power y (pw (int_mono v m))) x (qn (pw (int_mono v m)) * power x (pw (int_mono v m) - 1)) (m_coef (int_mono v m))), slope_power].
  - intros y. unfold mval. rewrite (only_tval v _ y O1). reflexivity.
  - rewrite P1. replace (S (pw m) - 1)%nat with (pw m) by lia. unfold mval. rewrite (only_tval v m x O).
    assert (C : m_coef (int_mono v m) * qn (S (pw m)) == m_coef m).
    { unfold int_mono, pw, qn. destruct (m_terms m) as [|t ts]; cbn [m_coef]; [ring|]. rewrite Nat.add_1_r.
      field. intros Z. apply (Qeq_bool_neq (inject_Z (Z.of_nat (S (t_pow t)))) 0); [|exact Z]. unfold Qeq_bool, inject_Z. cbn [Qnum Qden]. destruct (Z.of_nat (S (t_pow t))) eqn:E; try reflexivity. lia. }
    rewrite <- C. ring.
Qed.
Lemma int_mono_zero v ms : Forall (only v) ms -> sumval (fun _ => 0) (map (int_mono v) ms) == 0.
Proof.
  induction 1 as [|m r O _ IH]; cbn [map sumval]; [reflexivity|]. rewrite IH. destruct (int_mono_only v m O) as (O1 & _ & P1).
  unfold mval. rewrite (only_tval v _ 0 O1), P1. cbn [power]. ring.
Qed.

(** ** Coefficients *)
Lemma set_nth_horner k : forall l c, (k < List.length l)%nat -> nth k l 0 == 0 ->
  exists l', set_nth l k c = Ok l' /\ List.length l' = List.length l /\ (forall x, horner l' x == horner l x + c * power x k) /\ (forall j, j <> k -> nth j l' 0 = nth j l 0).
Proof.
  induction k as [|k IH]; intros [|a l] c L Z; simpl in L; try lia; cbn [set_nth].
  - exists (c :: l). split; [reflexivity|]. split; [reflexivity|]. split.
    + intros x. cbn [horner power]. simpl in Z. rewrite Z. ring.
    + intros [|j] H; [congruence|reflexivity].
  - destruct (IH l c ltac:(lia) Z) as (l' & E & Ll & H & J). rewrite E. cbn [omap]. exists (a :: l'). split; [reflexivity|]. split; [simpl; congruence|]. split.
    + intros x. cbn [horner power]. rewrite H. ring.
    + intros [|j] Hj; [reflexivity|]. simpl. apply J. congruence.
Qed.
Lemma fill_horner v ms : Forall (only v) ms -> NoDup (map pw ms) -> forall l, Forall (fun m => (pw m < List.length l)%nat /\ nth (pw m) l 0 == 0) ms ->
  exists l', fill_coefficients ms l = Ok l' /\ List.length l' = List.length l /\ forall x, horner l' x == horner l x + sumval (fun _ => x) ms.
Proof.
  induction 1 as [|m r O _ IH]; intros D l F; cbn [fill_coefficients].
  - exists l. split; [reflexivity|]. split; [reflexivity|]. intros x. cbn [sumval]. ring.
  - inversion F as [|? ? [L Z] F']; subst. cbn [map] in D. inversion D as [|? ? I D']; subst. fold (pw m).
    destruct (set_nth_horner (pw m) l (m_coef m) L Z) as (l1 & -> & L1 & H1 & J1). cbn [obind].
    destruct (IH D' l1) as (l2 & E2 & L2 & H2).
    + rewrite Forall_forall in *. intros y Hy. destruct (F' y Hy) as [Ly Zy]. split; [lia|]. rewrite J1; [exact Zy|]. intros E. apply I. rewrite <- E. apply in_map; auto.
    + exists l2. split; [exact E2|]. split; [congruence|]. intros x. rewrite H2, H1. cbn [sumval]. unfold mval. rewrite (only_tval v m x O). ring.
Qed.
Lemma horner_repeat n x : horner (repeat 0 n) x == 0.
Proof. induction n; cbn [repeat horner]; [reflexivity|]. rewrite IHn. ring. Qed.
Lemma degree_fold ms : forall d, (d <= fold_left (fun d m => if Nat.ltb d (MonoDegree m) then MonoDegree m else d) ms d)%nat /\
  (forall m, In m ms -> (MonoDegree m <= fold_left (fun d m => if Nat.ltb d (MonoDegree m) then MonoDegree m else d) ms d)%nat) /\
  (fold_left (fun d m => if Nat.ltb d (MonoDegree m) then MonoDegree m else d) ms d = d \/ exists m, In m ms /\ fold_left (fun d m => if Nat.ltb d (MonoDegree m) then MonoDegree m else d) ms d = MonoDegree m).
Proof.
  induction ms as [|m r IH]; intros d; cbn [fold_left].
  - split; [lia|]. split; [intros m []|auto].
  - destruct (IH (if Nat.ltb d (MonoDegree m) then MonoDegree m else d)) as (A & B & C). destruct (Nat.ltb_spec d (MonoDegree m)).
    + split; [lia|]. split; [intros x [<-|I]; [lia|auto]|]. right. destruct C as [C|(x & I & C)]; [exists m; split; [left; auto|auto]|exists x; split; [right; auto|auto]].
    + split; [lia|]. split; [intros x [<-|I]; [lia|auto]|]. destruct C as [C|(x & I & C)]; [auto|right; exists x; split; [right; auto|auto]].
Qed.
Lemma only_degree v m : only v m -> MonoDegree m = pw m.
Proof. unfold MonoDegree, pw. intros [E|(k & _ & E)]; rewrite E; reflexivity. Qed.
