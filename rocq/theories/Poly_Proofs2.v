(** Lemmas about Poly_Model: the operations one by one. *)
From Coq Require Import List QArith Qabs NArith Bool Arith Lia Lqa Permutation.
From Verif Require Import Base Maps Poly_Model Poly_Spec Poly_Proofs.
Import ListNotations.

Lemma proper_distinct ms : Forall proper ms -> Forall distinct ms.
Proof. intros H. eapply Forall_impl; [|exact H]. intros m [D _]; exact D. Qed.

(** ** Addition, subtraction *)
Lemma padd_value rho a b : Forall distinct (p_monos a) -> Forall distinct (p_monos b) ->
  value rho (padd a b) == value rho a + value rho b.
Proof.
  intros A B. unfold padd. rewrite unique_value.
  - unfold value. cbn [p_monos]. apply sumval_app.
  - cbn [p_monos]. apply Forall_app; auto.
Qed.
Definition neg1 (m : mono) : mono := Mono (m_coef m * -1) (m_terms m).
Lemma sumval_neg1 rho ms : sumval rho (map neg1 ms) == - sumval rho ms.
Proof. induction ms as [|m r IH]; simpl; [ring|]. rewrite IH. unfold mval, neg1. simpl. ring. Qed.
Lemma psub_value rho a b : Forall distinct (p_monos a) -> Forall distinct (p_monos b) ->
  value rho (psub a b) == value rho a - value rho b.
Proof.
  intros A B. unfold psub. rewrite unique_value.
  - unfold value. cbn [p_monos]. rewrite sumval_app. change (fun m => _) with neg1. rewrite sumval_neg1. ring.
  - cbn [p_monos]. apply Forall_app; split; auto. rewrite Forall_map. eapply Forall_impl; [|exact B]. auto.
Qed.

(** ** Multiplication *)
Lemma mul_term_value rho ts u : tval rho (mul_term ts u) == tval rho ts * power (rho (t_var u)) (t_pow u).
Proof.
  unfold mul_term. destruct (upd_first _ _ ts) as [l|] eqn:E.
  - apply upd_first_some in E. destruct E as (a & x & b & -> & -> & Ex & _). apply N.eqb_eq in Ex.
    rewrite !tval_app. cbn [tval]. unfold add_power. cbn [t_var t_pow]. rewrite power_plus, Ex. ring.
  - rewrite tval_app. cbn [tval]. ring.
Qed.
Lemma mul_terms_value rho us : forall ts, tval rho (fold_left mul_term us ts) == tval rho ts * tval rho us.
Proof. induction us as [|u r IH]; intros ts; simpl; [ring|]. rewrite IH, mul_term_value. ring. Qed.
Lemma mul_mono_value rho a b : mval rho (mul_mono a b) == mval rho a * mval rho b.
Proof. unfold mval, mul_mono. cbn [m_coef m_terms]. rewrite mul_terms_value. ring. Qed.
Lemma mul_term_vars ts u : map t_var (mul_term ts u) = map t_var ts \/ (map t_var (mul_term ts u) = map t_var ts ++ [t_var u] /\ ~ In (t_var u) (map t_var ts)).
Proof.
  unfold mul_term. destruct (upd_first _ _ ts) as [l|] eqn:E.
  - apply upd_first_some in E. destruct E as (a & x & b & -> & -> & Ex & _). left. rewrite !map_app. reflexivity.
  - right. split; [rewrite map_app; reflexivity|]. intros I. apply in_map_iff in I. destruct I as (t & Et & It).
    pose proof (upd_first_none _ _ _ E t It) as F. apply N.eqb_neq in F. auto.
Qed.
Lemma mul_term_distinct ts u : NoDup (map t_var ts) -> NoDup (map t_var (mul_term ts u)).
Proof.
  intros D. destruct (mul_term_vars ts u) as [->|[-> I]]; [auto|].
  apply NoDup_Add with (a := t_var u) (l := map t_var ts); [|split; auto].
  rewrite <- (app_nil_r (map t_var ts)) at 1. apply Add_app.
Qed.
Definition positive (ts : list term) : Prop := forall t, In t ts -> (0 < t_pow t)%nat /\ (0 < t_var t)%N.
Lemma mul_term_positive ts u : positive ts -> positive [u] -> positive (mul_term ts u).
Proof.
  intros P U t. unfold mul_term. destruct (upd_first _ _ ts) as [l|] eqn:E.
  - apply upd_first_some in E. destruct E as (a & x & b & -> & -> & Ex & _). rewrite in_app_iff. simpl. intros [I|[<-|I]].
    + apply P. apply in_or_app; auto.
    + destruct (P x) as [A B]; [apply in_or_app; simpl; auto|]. unfold add_power; simpl. split; [lia|auto].
    + apply P. apply in_or_app; simpl; auto.
  - rewrite in_app_iff. intros [I|I]; [apply P; auto|apply U; auto].
Qed.
Lemma mul_mono_distinct a b : distinct a -> distinct (mul_mono a b).
Proof.
  unfold distinct, mul_mono. cbn [m_terms]. generalize (m_terms a) as ts. induction (m_terms b) as [|u r IH]; intros ts D; simpl; [auto|].
  apply IH, mul_term_distinct, D.
Qed.
Lemma mul_mono_proper a b : proper a -> proper b -> proper (mul_mono a b).
Proof.
  intros [Da Pa] [Db Pb]. split; [apply mul_mono_distinct; auto|]. clear Da Db.
  unfold mul_mono. cbn [m_terms]. change (positive (m_terms a)) in Pa. change (positive (m_terms b)) in Pb.
  change (positive (fold_left mul_term (m_terms b) (m_terms a))).
  revert Pa Pb. generalize (m_terms a) as ts. induction (m_terms b) as [|u r IH]; intros ts Pa Pb; simpl; [auto|].
  apply IH; [|intros t I; apply Pb; right; auto]. apply mul_term_positive; [auto|]. intros t [<-|[]]. apply Pb; left; auto.
Qed.
Lemma mul_map_value rho m ms : sumval rho (map (mul_mono m) ms) == mval rho m * sumval rho ms.
Proof. induction ms as [|x r IH]; simpl; [ring|]. rewrite IH, mul_mono_value. ring. Qed.
Lemma mul_all_value rho a b : sumval rho (flat_map (fun m => map (mul_mono m) b) a) == sumval rho a * sumval rho b.
Proof. induction a as [|x r IH]; simpl; [ring|]. rewrite sumval_app, IH, mul_map_value. ring. Qed.
Lemma mul_all_distinct a b : Forall distinct a -> Forall distinct (flat_map (fun m => map (mul_mono m) b) a).
Proof.
  intros A. rewrite Forall_forall in *. intros m. rewrite in_flat_map. intros (x & Hx & Hm). apply in_map_iff in Hm. destruct Hm as (y & <- & Hy).
  apply mul_mono_distinct; auto.
Qed.
Lemma mul_all_proper a b : Forall proper a -> Forall proper b -> Forall proper (flat_map (fun m => map (mul_mono m) b) a).
Proof.
  intros A B. rewrite Forall_forall in *. intros m. rewrite in_flat_map. intros (x & Hx & Hm). apply in_map_iff in Hm. destruct Hm as (y & <- & Hy).
  apply mul_mono_proper; auto.
Qed.
Lemma pmul_value rho a b : Forall distinct (p_monos a) -> value rho (pmul a b) == value rho a * value rho b.
Proof.
  intros A. unfold pmul. rewrite unique_value; [|apply mul_all_distinct; auto]. unfold value. cbn [p_monos]. apply mul_all_value.
Qed.

(** ** Scalars *)
Lemma sumval_map_coef rho (f : Q -> Q) k ms : (forall x, f x == x * k) ->
  sumval rho (map (fun m => Mono (f (m_coef m)) (m_terms m)) ms) == sumval rho ms * k.
Proof.
  intros F. induction ms as [|m r IH]; simpl; [ring|]. rewrite IH. unfold mval. simpl. rewrite F. ring.
Qed.
Lemma padd_scalar_value rho a c : value rho (padd_scalar a c) == value rho a + c.
Proof.
  unfold padd_scalar, value. destruct (upd_first _ _ (p_monos a)) as [l|] eqn:E; cbn [p_monos].
  - apply upd_first_some in E. destruct E as (l1 & x & l2 & -> & -> & Ex & _). rewrite !sumval_app. cbn [sumval].
    unfold is_constant in Ex. unfold mval, add_coef. cbn [m_coef m_terms]. destruct (m_terms x); [|discriminate]. cbn [tval]. ring.
  - rewrite sumval_app. cbn [sumval]. unfold mval. cbn [m_coef m_terms tval]. ring.
Qed.
Lemma psub_scalar_value rho a c : value rho (psub_scalar a c) == value rho a - c.
Proof.
  unfold psub_scalar, value. destruct (upd_first _ _ (p_monos a)) as [l|] eqn:E; cbn [p_monos].
  - apply upd_first_some in E. destruct E as (l1 & x & l2 & -> & -> & Ex & _). rewrite !sumval_app. cbn [sumval].
    unfold is_constant in Ex. unfold mval, add_coef. cbn [m_coef m_terms]. destruct (m_terms x); [|discriminate]. cbn [tval]. ring.
  - rewrite sumval_app. cbn [sumval]. unfold mval. cbn [m_coef m_terms tval]. ring.
Qed.

(** ** Powers *)
Lemma const_proper c : Forall proper (p_monos (poly_const c)).
Proof. constructor; [|constructor]. split; [constructor|]. intros t []. Qed.
Lemma ppow_fuel_distinct f base e : Forall distinct (p_monos base) -> Forall proper (p_monos base) -> Forall proper (p_monos (ppow_fuel f base e)).
Proof.
  intros _ P. revert e. induction f as [|f IH]; intros e; cbn [ppow_fuel].
  - apply const_proper.
  - destruct (Nat.eqb e 0); [apply const_proper|].
    destruct (Nat.odd e).
    + apply (unique_good (Poly _ _)). cbn [p_monos]. apply mul_all_proper; [|apply IH].
      apply (unique_good (Poly _ _)). cbn [p_monos]. apply mul_all_proper; [auto|apply IH].
    + apply (unique_good (Poly _ _)). cbn [p_monos]. apply mul_all_proper; apply IH.
Qed.
Lemma ppow_fuel_value rho f base e : (e < f)%nat -> Forall proper (p_monos base) -> value rho (ppow_fuel f base e) == power (value rho base) e.
Proof.
  intros L P. revert e L. induction f as [|f IH]; intros e L; [lia|]. cbn [ppow_fuel].
  destruct (Nat.eqb_spec e 0) as [->|Ne]; [unfold value; simpl; unfold mval; simpl; ring|].
  assert (Lh : (Nat.div2 e < f)%nat) by (pose proof (Nat.lt_div2 e); lia).
  pose proof (IH _ Lh) as V.
  assert (PF : Forall distinct (p_monos (ppow_fuel f base (Nat.div2 e)))) by (apply proper_distinct, ppow_fuel_distinct; auto; apply proper_distinct; auto).
  pose proof (proper_distinct _ P) as PB.
  assert (E : power (value rho base) (Nat.div2 e + Nat.div2 e) == value rho (ppow_fuel f base (Nat.div2 e)) * value rho (ppow_fuel f base (Nat.div2 e)))
    by (rewrite power_plus, V; reflexivity).
  destruct (Nat.odd e) eqn:O.
  - rewrite pmul_value.
    + rewrite pmul_value by auto. rewrite <- Qmult_assoc, <- E.
      assert (X : e = S (Nat.div2 e + Nat.div2 e)) by (pose proof (Nat.div2_odd e) as D; rewrite O in D; simpl in D; lia).
      transitivity (power (value rho base) (S (Nat.div2 e + Nat.div2 e))); [reflexivity|]. rewrite <- X. reflexivity.
    + apply proper_distinct. apply (unique_good (Poly _ _)). cbn [p_monos]. apply mul_all_proper; [auto|]. apply ppow_fuel_distinct; auto.
  - rewrite pmul_value by auto. rewrite <- E.
    assert (X : (Nat.div2 e + Nat.div2 e)%nat = e) by (pose proof (Nat.div2_odd e) as D; rewrite O in D; simpl in D; lia).
    rewrite X. reflexivity.
Qed.

(** ** The constructor from terms *)
Lemma merge_terms_value rho v0 : forall n pre post univ, List.length pre = n ->
  tval rho (fst (merge_terms n v0 pre post univ)) == tval rho pre * tval rho post.
Proof.
  induction n as [|n IH]; intros pre post univ L.
  - destruct pre; [|discriminate]. simpl. ring.
  - destruct pre as [|t rest]; [discriminate|]. injection L as L. cbn [merge_terms].
    destruct rest as [|x r].
    + simpl. ring.
    + destruct (upd_first _ _ (rev r)) as [r'|] eqn:E.
      * apply upd_first_some in E. destruct E as (a & y & b & E1 & -> & Ey & _). apply N.eqb_eq in Ey.
        assert (Lr : List.length (rev r) = List.length (a ++ y :: b)) by (rewrite E1; reflexivity).
        rewrite rev_length, app_length in Lr. simpl in Lr, L.
        rewrite IH by (simpl; rewrite rev_length, app_length; simpl; lia).
        cbn [tval]. rewrite tval_rev, <- (tval_rev rho r), E1, !tval_app. cbn [tval]. unfold add_power. cbn [t_var t_pow]. rewrite power_plus, Ey. ring.
      * rewrite IH by exact L. cbn [tval]. ring.
Qed.
Lemma poly_terms_value rho c ts : value rho (poly_terms c ts) == c * tval rho ts.
Proof.
  unfold poly_terms. destruct (merge_terms _ _ _ _ _) as [l u] eqn:E. unfold value. cbn [p_monos sumval]. unfold mval. cbn [m_coef m_terms].
  change l with (fst (l, u)). rewrite <- E, merge_terms_value by apply rev_length. rewrite tval_rev. cbn [tval]. ring.
Qed.
Lemma nodup_tail {A} (l l' : list A) : NoDup (l ++ l') -> NoDup l'.
Proof. induction l as [|x r IH]; simpl; [auto|]. inversion 1; auto. Qed.
Lemma merge_terms_distinct v0 : forall n pre post univ, List.length pre = n -> NoDup (map t_var (rev pre ++ post)) ->
  (forall t, last pre (Term 0 0) = t -> pre <> [] -> t_var t = v0) ->
  merge_terms n v0 pre post univ = (rev pre ++ post, univ && Nat.leb n 1).
Proof.
  induction n as [|n IH]; intros pre post univ L D H.
  - destruct pre; [|discriminate]. simpl. rewrite Bool.andb_true_r. reflexivity.
  - destruct pre as [|t rest]; [discriminate|]. injection L as L. cbn [merge_terms].
    destruct rest as [|x r].
    + simpl in L. subst n. simpl. rewrite Bool.andb_true_r. reflexivity.
    + cbn [rev] in *. destruct (upd_first _ _ (rev r)) as [r'|] eqn:E.
      * exfalso. apply upd_first_some in E. destruct E as (a & y & b & E1 & _ & Ey & _). apply N.eqb_eq in Ey.
        rewrite E1 in D. rewrite <- !app_assoc in D. rewrite map_app in D. simpl in D. apply nodup_tail in D.
        inversion D as [|? ? I _]; subst. apply I. rewrite Ey. rewrite !map_app. apply in_or_app. right. right. left. reflexivity.
      * assert (D2 : NoDup (map t_var (rev (x :: r) ++ t :: post))) by (cbn [rev]; rewrite <- app_assoc in D; exact D).
        rewrite IH; [|exact L|exact D2|].
        { f_equal; [cbn [rev]; rewrite <- (app_assoc _ [t]); reflexivity|].
          assert (Nv : N.eqb (t_var t) v0 = false).
          { apply N.eqb_neq. intros Ev. specialize (H _ eq_refl ltac:(discriminate)). cbn [last] in H.
            assert (I : In (last (x :: r) (Term 0 0)) (x :: r)).
            { clear. revert x. induction r as [|y r IH]; intros x; [left; auto|]. right. cbn [last]. apply IH. }
            cbn [last] in I. apply in_rev in I. 
            apply in_split in I. destruct I as (l1 & l2 & Es). rewrite Es in D2. rewrite map_app in D2. rewrite map_app in D2. cbn [map] in D2.
            rewrite <- app_assoc in D2. apply nodup_tail in D2. inversion D2 as [|? ? I _]; subst. apply I. apply in_or_app. right. left. congruence. }
          rewrite Nv, Bool.andb_false_r. simpl in L. destruct n as [|[|n]]; [discriminate| |]; simpl; rewrite ?Bool.andb_false_r; reflexivity. }
        { intros u Hu _. apply H; [|discriminate]. cbn [last] in *. exact Hu. }
Qed.
Lemma last_rev_hd {A} (l : list A) (d : A) : last (rev l) d = hd d l.
Proof. destruct l as [|x r]; [reflexivity|]. cbn [rev hd]. apply last_last. Qed.
Lemma poly_terms_distinct c ts : NoDup (map t_var ts) -> poly_terms c ts = Poly [Mono c ts] (Nat.leb (List.length ts) 1).
Proof.
  intros D. unfold poly_terms. rewrite merge_terms_distinct.
  - rewrite app_nil_r, rev_involutive. reflexivity.
  - apply rev_length.
  - rewrite app_nil_r, rev_involutive. exact D.
  - intros t H1 H2. rewrite last_rev_hd in H1. destruct ts; [exfalso; apply H2; reflexivity|]. simpl in *. subst; auto.
Qed.

(** ** The univariate flag stays up *)
Lemma look_keeps v m uv : (0 < v)%N -> only v m -> (uv = 0%N \/ uv = v) -> exists uv', look m uv true = (uv', true) /\ (uv' = 0%N \/ uv' = v).
Proof.
  intros Hv [E|(k & _ & E)] Hu; unfold look; rewrite E; [eauto|]. cbn [t_var].
  destruct (N.eqb_spec v uv); [eauto|]. destruct (N.ltb_spec 0 uv); [|eauto]. destruct Hu; lia.
Qed.
Lemma mmu_keeps v : (0 < v)%N -> forall n pre post uv, List.length pre = n -> Forall (only v) pre -> (uv = 0%N \/ uv = v) -> snd (mmu n pre post uv true) = true.
Proof.
  intros Hv. induction n as [|n IH]; intros pre post uv L O Hu; [destruct pre; reflexivity|].
  destruct pre as [|m rest]; [discriminate|]. injection L as L. inversion O as [|? ? Om Or]; subst. cbn [mmu].
  destruct (Qeq_bool (m_coef m) 0); [apply IH; auto|].
  destruct (look_keeps v m uv Hv Om Hu) as (uv' & -> & Hu').
  destruct (upd_first _ _ (rev rest)) as [r'|] eqn:E; [|apply IH; auto].
  pose proof (merge_terms_same _ _ _ E) as T. apply IH; auto.
  - rewrite rev_length. apply (f_equal (@List.length _)) in T. rewrite !map_length, rev_length in T. exact T.
  - eapply (forall_terms (fun ts => ts = [] \/ exists k, (0 < k)%nat /\ ts = [Term v k])); [|exact Or]. apply map_terms_rev, T.
Qed.
Lemma unique_keeps v p : (0 < v)%N -> Forall (only v) (p_monos p) -> p_univ p = true -> p_univ (MakeMonomialsUnique p) = true.
Proof.
  intros Hv O U. unfold MakeMonomialsUnique. pose proof (mmu_keeps v Hv (List.length (p_monos p)) (rev (p_monos p)) [] 0%N) as M.
  rewrite U. destruct (mmu _ _ _ _ _) as [ms u]. cbn [snd p_univ] in *. apply M; auto. apply rev_length. apply Forall_rev; auto.
Qed.

(** The terms of the result are among the given ones. *)
Lemma mmu_terms : forall n pre post uv univ m, List.length pre = n -> In m (fst (mmu n pre post uv univ)) ->
  exists m', In m' (pre ++ post) /\ m_terms m' = m_terms m.
Proof.
  induction n as [|n IH]; intros pre post uv univ m L I.
  - destruct pre; [|discriminate]. simpl in I. eauto.
  - destruct pre as [|x rest]; [discriminate|]. injection L as L. cbn [mmu] in I. destruct (Qeq_bool (m_coef x) 0).
    + destruct (IH _ _ _ _ _ L I) as (m' & Hm & E). exists m'. split; [right; auto|auto].
    + destruct (look x uv univ) as [uv' univ']. destruct (upd_first _ _ (rev rest)) as [r'|] eqn:E.
      * pose proof (merge_terms_same _ _ _ E) as T.
        destruct (IH (rev r') post uv' univ' m) as (m' & Hm & Em); auto.
        { rewrite rev_length. apply (f_equal (@List.length _)) in T. rewrite !map_length, rev_length in T. congruence. }
        apply in_app_or in Hm. destruct Hm as [Hm|Hm].
        { destruct (in_terms _ _ _ (map_terms_rev _ _ T) Hm) as (m'' & H1 & H2). exists m''. split; [right; apply in_or_app; auto|congruence]. }
        { exists m'. split; [right; apply in_or_app; auto|auto]. }
      * destruct (IH rest (x :: post) uv' univ' m L I) as (m' & Hm & Em). exists m'. split; [|auto].
        apply in_app_or in Hm. destruct Hm as [Hm|[->|Hm]]; [right; apply in_or_app; auto|left; auto|right; apply in_or_app; auto].
Qed.
Lemma unique_terms p m : In m (p_monos (MakeMonomialsUnique p)) -> exists m', In m' (p_monos p) /\ m_terms m' = m_terms m.
Proof.
  unfold MakeMonomialsUnique. pose proof (mmu_terms (List.length (p_monos p)) (rev (p_monos p)) [] 0%N (p_univ p) m) as M.
  destruct (mmu _ _ _ _ _) as [ms u]. cbn [fst p_monos] in *. intros I. destruct (M (rev_length _) I) as (m' & Hm & E).
  rewrite app_nil_r in Hm. apply in_rev in Hm. eauto.
Qed.
Lemma unique_only v p : Forall (only v) (p_monos p) -> Forall (only v) (p_monos (MakeMonomialsUnique p)).
Proof.
  intros O. rewrite Forall_forall in *. intros m I. destruct (unique_terms _ _ I) as (m' & Hm & E). specialize (O _ Hm). unfold only in *. rewrite <- E. exact O.
Qed.
Lemma mul_mono_only v a b : only v a -> only v b -> only v (mul_mono a b).
Proof.
  unfold only, mul_mono. cbn [m_terms]. intros [Ea|(k & Hk & Ea)] [Eb|(k' & Hk' & Eb)]; rewrite Ea, Eb; cbn [fold_left]; unfold mul_term; cbn [upd_first].
  - left; auto.
  - right. exists k'. auto.
  - right. exists k. auto.
  - cbn [t_var]. rewrite N.eqb_refl. right. exists (k + k')%nat. split; [lia|reflexivity].
Qed.
Lemma mul_all_only v a b : Forall (only v) a -> Forall (only v) b -> Forall (only v) (flat_map (fun m => map (mul_mono m) b) a).
Proof.
  intros A B. rewrite Forall_forall in *. intros m. rewrite in_flat_map. intros (x & Hx & Hm). apply in_map_iff in Hm. destruct Hm as (y & <- & Hy).
  apply mul_mono_only; auto.
Qed.
(** A polynomial in the variable v alone, and known to be. *)
Definition in_var (v : N) (p : poly) : Prop := Forall (only v) (p_monos p) /\ p_univ p = true.
Lemma in_var_padd v a b : (0 < v)%N -> in_var v a -> in_var v b -> in_var v (padd a b).
Proof.
  intros Hv [A Ua] [B Ub]. assert (O : Forall (only v) (p_monos a ++ p_monos b)) by (apply Forall_app; auto).
  split; [apply unique_only; auto|]. apply unique_keeps with v; auto.
Qed.
Lemma in_var_psub v a b : (0 < v)%N -> in_var v a -> in_var v b -> in_var v (psub a b).
Proof.
  intros Hv [A Ua] [B Ub]. assert (O : Forall (only v) (p_monos a ++ map neg1 (p_monos b))) by (apply Forall_app; split; auto; rewrite Forall_map; exact B).
  split; [apply unique_only; auto|]. apply unique_keeps with v; auto.
Qed.
Lemma in_var_pmul v a b : (0 < v)%N -> in_var v a -> in_var v b -> in_var v (pmul a b).
Proof.
  intros Hv [A Ua] [B Ub]. pose proof (mul_all_only v _ _ A B) as O.
  split; [apply unique_only; auto|]. apply unique_keeps with v; auto.
Qed.
Lemma in_var_const v c : in_var v (poly_const c).
Proof. split; [repeat constructor|reflexivity]. Qed.
Lemma in_var_ppow v p e : (0 < v)%N -> in_var v p -> in_var v (ppow p e).
Proof.
  intros Hv H. unfold ppow. generalize (S e) as f. intros f. revert e. induction f as [|f IH]; intros e; cbn [ppow_fuel]; [apply in_var_const|].
  destruct (Nat.eqb e 0); [apply in_var_const|]. destruct (Nat.odd e); repeat apply in_var_pmul; auto.
Qed.
Lemma only_proper v m : (0 < v)%N -> only v m -> proper m.
Proof.
  intros Hv [E|(k & Hk & E)]; unfold proper, distinct; rewrite E; simpl; (split; [repeat constructor; simpl; tauto|]); intros t; [tauto|]. intros [<-|[]]. auto.
Qed.
