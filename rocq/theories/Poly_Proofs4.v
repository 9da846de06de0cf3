(** Lemmas about Poly_Model: comparison, division of monomials, variable names. *)
From Coq Require Import List QArith Qabs NArith Bool Arith Lia Lqa Permutation String Ascii.
From Verif Require Import Base Maps Poly_Model Poly_Spec Poly_Proofs Poly_Proofs2 Poly_Proofs3.
Import ListNotations.

(** ** operator== *)
Lemma remove_first_some {A} (f : A -> bool) l l' : remove_first f l = Some l' -> exists x, f x = true /\ Permutation l (x :: l').
Proof.
  revert l'. induction l as [|x r IH]; simpl; intros l' H; [discriminate|]. destruct (f x) eqn:E.
  - injection H as <-. exists x. auto.
  - destruct (remove_first f r) as [r'|]; [|discriminate]. injection H as <-. destruct (IH _ eq_refl) as (y & Fy & P). exists y. split; [auto|].
    rewrite P. apply perm_swap.
Qed.
Lemma mono_eqb_value rho a b : mono_eqb a b = true -> mval rho a == mval rho b.
Proof.
  unfold mono_eqb, mval. rewrite Bool.andb_true_iff, terms_eqb_ok, Qeq_bool_iff. intros [C ->]. rewrite C. reflexivity.
Qed.
Lemma multiset_value rho l : forall l', multiset_eqb l l' = true -> sumval rho l == sumval rho l'.
Proof.
  induction l as [|m r IH]; intros l'; cbn [multiset_eqb].
  - destruct l'; [reflexivity|discriminate].
  - destruct (remove_first (mono_eqb m) l') as [r'|] eqn:E; [|discriminate]. intros H. apply remove_first_some in E. destruct E as (x & X & P).
    rewrite (sumval_perm rho _ _ P). cbn [sumval]. rewrite (IH _ H), (mono_eqb_value rho _ _ X). reflexivity.
Qed.
Lemma mono_eqb_refl m : mono_eqb m m = true.
Proof. unfold mono_eqb. rewrite Bool.andb_true_iff, terms_eqb_ok, Qeq_bool_iff. split; reflexivity. Qed.
Lemma mono_eqb_trans a b c : mono_eqb a b = true -> mono_eqb a c = true -> mono_eqb b c = true.
Proof. unfold mono_eqb. rewrite !Bool.andb_true_iff, !terms_eqb_ok, !Qeq_bool_iff. intros [A <-] [B <-]. split; [rewrite <- A; auto|reflexivity]. Qed.

(** ** CoefficientsAlmostEqual *)
Definition unmatched (rho : N -> Q) (l : list (mono * bool)) : Q :=
  sumval rho (map fst (filter (fun mb => negb (snd mb)) l)).
(** What one monomial may be off by. *)
Definition slack (rho : N -> Q) (ty : tolerance_type) (m : mono) : Q :=
  match ty with kAbsolute => Qabs (tval rho (m_terms m)) | kRelative => Qabs (mval rho m) end.
Fixpoint slacks (rho : N -> Q) (ty : tolerance_type) (ms : list mono) : Q :=
  match ms with [] => 0 | m :: r => slack rho ty m + slacks rho ty r end.
Lemma slack_nonneg rho ty m : 0 <= slack rho ty m.
Proof. destruct ty; apply Qabs_nonneg. Qed.
Lemma slacks_nonneg rho ty ms : 0 <= slacks rho ty ms.
Proof. induction ms as [|m r IH]; cbn [slacks]; [lra|]. pose proof (slack_nonneg rho ty m). lra. Qed.
Lemma close_bound rho ty tol m x : 0 <= tol -> terms_eqb (m_terms m) (m_terms x) = true -> close ty tol (m_coef m) (m_coef x) = true ->
  Qabs (mval rho m - mval rho x) <= tol * slack rho ty m.
Proof.
  intros Ht E C. apply terms_eqb_ok in E. unfold mval. rewrite <- E.
  rewrite (Qabs_wd _ ((m_coef m - m_coef x) * tval rho (m_terms m))) by ring. rewrite Qabs_Qmult.
  pose proof (Qabs_nonneg (tval rho (m_terms m))) as T. destruct ty; unfold close in C; apply Qleb_true in C; unfold slack.
  - apply Qmult_le_compat_r; auto.
  - unfold mval. rewrite Qabs_Qmult, Qmult_assoc. apply Qmult_le_compat_r; [|auto].
    eapply Qle_trans; [exact C|]. assert (cmin (Qabs (m_coef m)) (Qabs (m_coef x)) <= Qabs (m_coef m)) by (unfold cmin; qcases; lra).
    rewrite !(Qmult_comm tol). apply Qmult_le_compat_r; auto.
Qed.
Lemma match_mono_bound rho ty tol m l : forall c l', 0 <= tol -> match_mono ty tol m l = Some (c, l') -> c = true ->
  Qabs (mval rho m - (unmatched rho l - unmatched rho l')) <= tol * slack rho ty m.
Proof.
  induction l as [|[x b] r IH]; intros c l' Ht; cbn [match_mono]; [discriminate|].
  destruct (negb b && terms_eqb (m_terms m) (m_terms x)) eqn:E.
  - intros H C. injection H as H1 <-. rewrite C in H1. apply Bool.andb_true_iff in E. destruct E as [Eb Et]. apply Bool.negb_true_iff in Eb. subst b.
    unfold unmatched. cbn [filter snd negb map fst sumval].
    rewrite (Qabs_wd _ (mval rho m - mval rho x)) by ring. apply close_bound; auto.
  - destruct (match_mono ty tol m r) as [[c1 r']|] eqn:M; [|discriminate]. intros H C. injection H as <- <-. specialize (IH _ _ Ht eq_refl C).
    unfold unmatched in *. cbn [filter snd]. destruct b; cbn [negb map fst sumval]; [exact IH|].
    rewrite (Qabs_wd _ (mval rho m - (sumval rho (map fst (filter (fun mb => negb (snd mb)) r)) - sumval rho (map fst (filter (fun mb => negb (snd mb)) r'))))) by ring. exact IH.
Qed.
Lemma cmp_acc ty tol os : forall l acc l', cmp_others ty tol os l acc = (true, l', true) -> acc = true.
Proof.
  induction os as [|m r IH]; intros l acc l'; cbn [cmp_others]; [injection 1; auto|].
  destruct (match_mono ty tol m l) as [[c l1]|].
  - intros H. apply IH in H. apply Bool.andb_true_iff in H. tauto.
  - destruct ty; [|discriminate]. intros H. apply IH in H. apply Bool.andb_true_iff in H. tauto.
Qed.
Lemma cmp_bound rho ty tol os : 0 <= tol -> forall l acc l', cmp_others ty tol os l acc = (true, l', true) ->
  Qabs (sumval rho os - (unmatched rho l - unmatched rho l')) <= tol * slacks rho ty os.
Proof.
  intros Ht. induction os as [|m r IH]; intros l acc l'; cbn [cmp_others sumval slacks].
  - injection 1 as _ <-. rewrite (Qabs_wd _ 0) by ring. change (Qabs 0) with 0. lra.
  - destruct (match_mono ty tol m l) as [[c l1]|] eqn:M.
    + intros H. pose proof (cmp_acc _ _ _ _ _ _ H) as A. apply Bool.andb_true_iff in A. destruct A as [_ A].
      specialize (IH _ _ _ H). pose proof (match_mono_bound rho ty tol m l c l1 Ht M A) as B.
      rewrite (Qabs_wd _ ((mval rho m - (unmatched rho l - unmatched rho l1)) + (sumval rho r - (unmatched rho l1 - unmatched rho l')))) by ring.
      eapply Qle_trans; [apply Qabs_triangle|]. lra.
    + destruct ty; [|discriminate]. intros H. pose proof (cmp_acc _ _ _ _ _ _ H) as A. apply Bool.andb_true_iff in A. destruct A as [_ A]. apply Qleb_true in A.
      specialize (IH _ _ _ H).
      assert (B : Qabs (mval rho m) <= tol * slack rho kAbsolute m).
      { unfold mval, slack. rewrite Qabs_Qmult. apply Qmult_le_compat_r; [exact A|apply Qabs_nonneg]. }
      rewrite (Qabs_wd _ (mval rho m + (sumval rho r - (unmatched rho l - unmatched rho l')))) by ring.
      eapply Qle_trans; [apply Qabs_triangle|]. lra.
Qed.
Lemma match_mono_fst ty tol m l : forall c l', match_mono ty tol m l = Some (c, l') -> map fst l' = map fst l.
Proof.
  induction l as [|[x b] r IH]; intros c l'; cbn [match_mono]; [discriminate|]. destruct (negb b && _).
  - injection 1 as _ <-. reflexivity.
  - destruct (match_mono ty tol m r) as [[c1 r']|]; [|discriminate]. injection 1 as _ <-. simpl. f_equal. eapply IH; eauto.
Qed.
Lemma cmp_fst ty tol os : forall l acc a l' g, cmp_others ty tol os l acc = (a, l', g) -> map fst l' = map fst l.
Proof.
  induction os as [|m r IH]; intros l acc a l' g; cbn [cmp_others]; [injection 1 as _ <- _; reflexivity|].
  destruct (match_mono ty tol m l) as [[c l1]|] eqn:M.
  - intros H. rewrite (IH _ _ _ _ _ H). eapply match_mono_fst; eauto.
  - destruct ty; [apply IH|]. injection 1 as _ <- _. reflexivity.
Qed.
Lemma rest_bound rho ty tol l : 0 <= tol ->
  forallb (fun mb : mono * bool => snd mb || match ty with kAbsolute => Qleb (Qabs (m_coef (fst mb))) tol | kRelative => false end) l = true ->
  Qabs (unmatched rho l) <= tol * slacks rho ty (map fst l).
Proof.
  intros Ht. unfold unmatched. induction l as [|[x b] r IH]; cbn [forallb filter snd map fst sumval slacks].
  - intros _. change (Qabs 0) with 0. lra.
  - rewrite Bool.andb_true_iff. intros [A B]. specialize (IH B). pose proof (slack_nonneg rho ty x) as Sx.
    assert (0 <= tol * slack rho ty x) by (apply Qmult_le_0_compat; auto).
    destruct b; cbn [negb map fst sumval orb] in *; [lra|]. destruct ty; [|discriminate]. apply Qleb_true in A.
    eapply Qle_trans; [apply Qabs_triangle|].
    assert (Qabs (mval rho x) <= tol * slack rho kAbsolute x) by (unfold mval, slack; rewrite Qabs_Qmult; apply Qmult_le_compat_r; [exact A|apply Qabs_nonneg]).
    lra.
Qed.
Lemma unmatched_fresh rho ms : unmatched rho (map (fun m => (m, false)) ms) == sumval rho ms.
Proof. unfold unmatched. induction ms as [|m r IH]; cbn [map filter snd negb fst sumval]; [reflexivity|]. rewrite IH. reflexivity. Qed.
Lemma almost_equal_bound rho p q tol ty : 0 <= tol -> CoefficientsAlmostEqual p q tol ty = true ->
  Qabs (value rho p - value rho q) <= tol * (slacks rho ty (p_monos p) + slacks rho ty (p_monos q)).
Proof.
  intros Ht. unfold CoefficientsAlmostEqual. destruct (cmp_others _ _ _ _ _) as [[acc l] go] eqn:E. destruct go; [|discriminate].
  rewrite Bool.andb_true_iff. intros [-> F]. pose proof (cmp_bound rho ty tol _ Ht _ _ _ E) as B. pose proof (rest_bound rho ty tol l Ht F) as R.
  rewrite (cmp_fst _ _ _ _ _ _ _ _ E) in R. rewrite map_map in R. cbn [fst] in R. rewrite map_id in R. rewrite unmatched_fresh in B. unfold value.
  rewrite (Qabs_wd _ (- (sumval rho (p_monos q) - (sumval rho (p_monos p) - unmatched rho l)) + unmatched rho l)) by ring.
  eapply Qle_trans; [apply Qabs_triangle|]. rewrite Qabs_opp. lra.
Qed.
Lemma close_refl ty tol a : 0 <= tol -> close ty tol a a = true.
Proof.
  intros Ht. unfold close. destruct ty; apply Qleb_true; rewrite (Qabs_wd _ 0) by ring; change (Qabs 0) with 0; [lra|].
  apply Qmult_le_0_compat; [auto|]. unfold cmin. qcases; apply Qabs_nonneg.
Qed.
Lemma match_skip ty tol m d r : match_mono ty tol m (map (fun x => (x, true)) d ++ r) =
  match match_mono ty tol m r with Some (c, r') => Some (c, map (fun x => (x, true)) d ++ r') | None => None end.
Proof.
  induction d as [|x d IH]; cbn [map app match_mono negb andb]; [destruct (match_mono ty tol m r) as [[c r']|]; reflexivity|].
  rewrite IH. destruct (match_mono ty tol m r) as [[c r']|]; reflexivity.
Qed.
Lemma cmp_refl ty tol ms : 0 <= tol -> forall d, cmp_others ty tol ms (map (fun x => (x, true)) d ++ map (fun x => (x, false)) ms) true
  = (true, map (fun x => (x, true)) (d ++ ms), true).
Proof.
  intros Ht. induction ms as [|m r IH]; intros d; cbn [cmp_others map].
  - rewrite !app_nil_r. reflexivity.
  - rewrite match_skip. cbn [match_mono negb andb].
    assert (T : terms_eqb (m_terms m) (m_terms m) = true) by (apply terms_eqb_ok; reflexivity). rewrite T, close_refl by exact Ht. cbn [andb].
    specialize (IH (d ++ [m])). rewrite map_app in IH. cbn [map] in IH. rewrite <- !app_assoc in IH. cbn [app] in IH. exact IH.
Qed.
Lemma almost_equal_refl p tol ty : 0 <= tol -> CoefficientsAlmostEqual p p tol ty = true.
Proof.
  intros Ht. unfold CoefficientsAlmostEqual. pose proof (cmp_refl ty tol (p_monos p) Ht []) as C. cbn [map app] in C. rewrite C. cbn [andb].
  apply forallb_forall. intros x I. apply in_map_iff in I. destruct I as (m & <- & _). reflexivity.
Qed.

(** ** Monomial::Factor *)
Fixpoint degof (ts : list term) (v : N) : nat := match ts with [] => O | t :: r => if N.eqb (t_var t) v then t_pow t else degof r v end.
Lemma GetDegreeOf_degof m v : GetDegreeOf m v = degof (m_terms m) v.
Proof.
  unfold GetDegreeOf. induction (m_terms m) as [|t r IH]; simpl; [reflexivity|]. destruct (N.eqb (t_var t) v); [reflexivity|exact IH].
Qed.
Lemma degof_in ts t : NoDup (map t_var ts) -> In t ts -> degof ts (t_var t) = t_pow t.
Proof.
  induction ts as [|u r IH]; simpl; [tauto|]. inversion 1 as [|? ? I D]; subst. intros [->|J].
  - rewrite N.eqb_refl. reflexivity.
  - destruct (N.eqb_spec (t_var u) (t_var t)) as [E|_]; [|auto]. exfalso. apply I. rewrite E. apply in_map; auto.
Qed.
Lemma degof_out ts v : ~ In v (map t_var ts) -> degof ts v = O.
Proof.
  induction ts as [|u r IH]; simpl; [auto|]. intros H. destruct (N.eqb_spec (t_var u) v) as [E|_]; [tauto|]. apply IH. tauto.
Qed.
Fixpoint shared (rho : N -> Q) (ds ts : list term) : Q :=
  match ts with [] => 1 | t :: r => power (rho (t_var t)) (degof ds (t_var t)) * shared rho ds r end.
Lemma shared_out rho d ds ts : ~ In (t_var d) (map t_var ts) -> shared rho (d :: ds) ts == shared rho ds ts.
Proof.
  induction ts as [|t r IH]; cbn [shared map]; [reflexivity|]. intros H. rewrite IH by (intros I; apply H; right; auto).
  cbn [degof]. destruct (N.eqb_spec (t_var d) (t_var t)) as [E|_]; [|reflexivity]. exfalso. apply H. left; auto.
Qed.
Lemma shared_cons rho d ds ts : NoDup (map t_var ts) -> In (t_var d) (map t_var ts) -> ~ In (t_var d) (map t_var ds) ->
  shared rho (d :: ds) ts == power (rho (t_var d)) (t_pow d) * shared rho ds ts.
Proof.
  induction ts as [|t r IH]; cbn [shared map]; [intros _ []|]. intros D I F. inversion D as [|? ? J D']; subst. cbn [degof].
  destruct (N.eqb_spec (t_var d) (t_var t)) as [E|Ne].
  - rewrite shared_out by (rewrite E; exact J). rewrite <- E, (degof_out ds) by exact F. cbn [power]. ring.
  - destruct I as [I|I]; [congruence|]. rewrite IH by auto. ring.
Qed.
Lemma shared_all rho ts : NoDup (map t_var ts) -> forall ds, NoDup (map t_var ds) -> (forall d, In d ds -> In (t_var d) (map t_var ts)) -> shared rho ds ts == tval rho ds.
Proof.
  intros D. induction ds as [|d ds IH]; intros N H.
  - cbn [tval]. clear. induction ts as [|t r IH]; cbn [shared degof power]; [reflexivity|]. rewrite IH. ring.
  - cbn [map] in N. inversion N as [|? ? I N']; subst. rewrite shared_cons; auto; [|apply H; left; auto]. cbn [tval]. rewrite IH; auto; [|intros x Hx; apply H; right; auto]. reflexivity.
Qed.
Lemma factor_terms_value rho d ts : forall qs, factor_terms d ts = Some qs -> tval rho ts == tval rho qs * shared rho (m_terms d) ts.
Proof.
  induction ts as [|t r IH]; intros qs; cbn [factor_terms]; [injection 1 as <-; cbn [tval shared]; ring|].
  rewrite GetDegreeOf_degof. destruct (Nat.ltb_spec (t_pow t) (degof (m_terms d) (t_var t))) as [L|L]; [discriminate|].
  destruct (factor_terms d r) as [r'|]; [|discriminate]. specialize (IH _ eq_refl). intros H. injection H as <-. cbn [tval shared]. rewrite IH.
  replace (t_pow t) with (degof (m_terms d) (t_var t) + (t_pow t - degof (m_terms d) (t_var t)))%nat at 1 by lia. rewrite power_plus.
  destruct (Nat.ltb_spec 0 (t_pow t - degof (m_terms d) (t_var t))) as [P|P].
  - cbn [tval t_var t_pow]. ring.
  - replace (t_pow t - degof (m_terms d) (t_var t))%nat with O by lia. cbn [power]. ring.
Qed.
Lemma factor_terms_some d ts : (exists qs, factor_terms d ts = Some qs) <-> forall t, In t ts -> (degof (m_terms d) (t_var t) <= t_pow t)%nat.
Proof.
  induction ts as [|t r IH]; cbn [factor_terms]; [split; [intros _ t []|eauto]|]. rewrite GetDegreeOf_degof.
  destruct (Nat.ltb_spec (t_pow t) (degof (m_terms d) (t_var t))) as [L|L].
  - split; [intros [qs Q]; discriminate|]. intros H. specialize (H t (or_introl eq_refl)). lia.
  - destruct (factor_terms d r) as [r'|].
    + split; [|eauto]. intros _ u [<-|I]; [exact L|]. apply IH; eauto.
    + split; [intros [qs Q]; discriminate|]. intros H. destruct IH as [_ IH]. destruct IH as [x X]; [|discriminate]. intros; apply H; right; auto.
Qed.

(** ** Variables *)
Lemma set_insert_in v x l : In x (set_insert v l) <-> x = v \/ In x l.
Proof.
  induction l as [|y r IH]; cbn [set_insert]; [simpl; intuition|]. destruct (N.ltb v y); [simpl; intuition|]. destruct (N.eqb_spec v y) as [->|_].
  - simpl. intuition.
  - simpl. rewrite IH. intuition.
Qed.
Lemma vars_terms ts : forall s x, In x (fold_left (fun s' t => set_insert (t_var t) s') ts s) <-> In x s \/ exists t, In t ts /\ t_var t = x.
Proof.
  induction ts as [|t r IH]; intros s x; cbn [fold_left]; [split; [auto|intros [H|(t & [] & _)]; auto]|]. rewrite IH, set_insert_in. split.
  - intros [[->|H]|(u & I & E)]; [right; exists t; simpl; auto|auto|right; exists u; simpl; auto].
  - intros [H|(u & [->|I] & E)]; [auto|auto|right; eauto].
Qed.
Lemma vars_monos ms : forall s x, In x (fold_left (fun s m => fold_left (fun s' t => set_insert (t_var t) s') (m_terms m) s) ms s) <->
  In x s \/ exists m t, In m ms /\ In t (m_terms m) /\ t_var t = x.
Proof.
  induction ms as [|m r IH]; intros s x; cbn [fold_left]; [split; [auto|intros [H|(m & t & [] & _)]; auto]|]. rewrite IH, vars_terms. split.
  - intros [[H|(t & I & E)]|(m' & t & I & J & E)]; [auto|right; exists m, t; simpl; auto|right; exists m', t; simpl; auto].
  - intros [H|(m' & t & [->|I] & J & E)]; [auto|left; right; eauto|right; eauto].
Qed.
Inductive increasing : list N -> Prop :=
| inc_nil : increasing []
| inc_cons x l : (forall y, In y l -> (x < y)%N) -> increasing l -> increasing (x :: l).
Lemma set_insert_inc v l : increasing l -> increasing (set_insert v l).
Proof.
  induction 1 as [|x l H I IH]; cbn [set_insert]; [constructor; [intros y []|constructor]|].
  destruct (N.ltb_spec v x).
  - constructor; [intros y [<-|J]; [auto|]; specialize (H _ J); lia|constructor; auto].
  - destruct (N.eqb_spec v x) as [->|Ne]; [constructor; auto|]. constructor; [|exact IH]. intros y J. apply set_insert_in in J. destruct J as [->|J]; [lia|auto].
Qed.
Lemma vars_terms_inc ts : forall s, increasing s -> increasing (fold_left (fun s' t => set_insert (t_var t) s') ts s).
Proof. induction ts; simpl; auto using set_insert_inc. Qed.
Lemma vars_inc ms : forall s, increasing s -> increasing (fold_left (fun s m => fold_left (fun s' t => set_insert (t_var t) s') (m_terms m) s) ms s).
Proof. induction ms; simpl; auto using vars_terms_inc. Qed.

(** ** Names *)
Definition digit (c : ascii) : N := match strchr kNameChars c with Some o => o + 1 | None => 0 end.
Lemma name_char_digit c : name_char c -> (1 <= digit c <= 30)%N /\ strchr kNameChars c = Some (digit c - 1)%N /\
  String.get (N.to_nat (digit c - 1)) kNameChars = Some c.
Proof.
  intros H.
  assert (K : forallb (fun n => let c := ascii_of_nat n in
    if (Nat.leb 97 n && Nat.leb n 122) || Nat.eqb n 64 || Nat.eqb n 35 || Nat.eqb n 95 || Nat.eqb n 46
    then (N.leb 1 (digit c) && N.leb (digit c) 30) && match strchr kNameChars c with Some o => N.eqb o (digit c - 1) | None => false end
         && match String.get (N.to_nat (digit c - 1)) kNameChars with Some c' => Ascii.eqb c' c | None => false end
    else true) (seq 0 256) = true) by (vm_compute; reflexivity).
  rewrite forallb_forall in K. specialize (K (nat_of_ascii c)). cbv zeta in K. rewrite ascii_nat_embedding in K.
  assert (B : (nat_of_ascii c < 256)%nat) by apply nat_ascii_bounded. specialize (K ltac:(apply in_seq; lia)).
  assert (G : (Nat.leb 97 (nat_of_ascii c) && Nat.leb (nat_of_ascii c) 122) || Nat.eqb (nat_of_ascii c) 64 || Nat.eqb (nat_of_ascii c) 35 || Nat.eqb (nat_of_ascii c) 95 || Nat.eqb (nat_of_ascii c) 46 = true).
  { destruct H as [H|[->|[->|[->| ->]]]]; try reflexivity. unfold nat_of_ascii.
    assert (L1 : Nat.leb 97 (N.to_nat (N_of_ascii c)) = true) by (apply Nat.leb_le; lia).
    assert (L2 : Nat.leb (N.to_nat (N_of_ascii c)) 122 = true) by (apply Nat.leb_le; lia). rewrite L1, L2. reflexivity. }
  rewrite G in K. rewrite !Bool.andb_true_iff in K. destruct K as [[[K1 K2] K3] K4]. apply N.leb_le in K1, K2.
  split; [auto|]. destruct (strchr kNameChars c); [|discriminate]. apply N.eqb_eq in K3. destruct (String.get _ _) as [c'|]; [|discriminate]. apply Ascii.eqb_eq in K4. subst. auto.
Qed.
(** Base 31, most significant first. *)
Fixpoint num (l : list N) : N := match l with [] => 0 | d :: r => d + 31 * num r end%N.
Lemma name_loop_num r : forall mult part, Forall name_char r -> (mult * 31 ^ N.of_nat (List.length r) <= two32)%N -> (part + mult * num (map digit r) < two32)%N ->
  name_loop r mult part = (part + mult * num (map digit r))%N.
Proof.
  induction r as [|c r IH]; intros mult part F M P; cbn [name_loop map num]; [lia|].
  inversion F as [|? ? C F']; subst. destruct (name_char_digit c C) as (D & S & _). rewrite S.
  replace (digit c - 1 + 1)%N with (digit c) by lia. cbn [map num] in P. cbn [List.length] in M.
  rewrite Nat2N.inj_succ, N.pow_succ_r' in M.
  rewrite !(N.mod_small ((digit c) * mult)) by nia. rewrite (N.mod_small (part + _)) by nia.
  change (kNumNameChars + 1)%N with 31%N.
  destruct r as [|c' r'].
  - cbn [name_loop map num]. nia.
  - assert (31 * mult < two32)%N.
    { cbn [List.length] in M. rewrite Nat2N.inj_succ, N.pow_succ_r' in M. assert (1 <= 31 ^ N.of_nat (List.length r'))%N by (pose proof (N.pow_nonzero 31 (N.of_nat (List.length r'))); lia).
      destruct (N.eq_dec mult 0) as [->|]; [reflexivity|]. nia. }
    rewrite (N.mod_small (mult * 31)) by lia. rewrite IH; auto; nia.
Qed.
