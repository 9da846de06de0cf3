(** Lemmas about Poly_Model: evaluation and the combination of like monomials. *)
From Coq Require Import List QArith Qabs NArith Bool Arith Lia Lqa Permutation.
From Verif Require Import Base Maps Poly_Model Poly_Spec.
Import ListNotations.

Lemma qpow_power x n : qpow x n = power x n.
Proof. induction n; simpl; congruence. Qed.
Lemma power_plus x a b : power x (a + b) == power x a * power x b.
Proof. induction a; simpl; [ring|]. rewrite IHa. ring. Qed.
Lemma power_comp x y n : x == y -> power x n == power y n.
Proof. intros H. induction n; simpl; [reflexivity|]. now rewrite IHn, H. Qed.
Lemma power_one n : power 1 n == 1.
Proof. induction n; simpl; [reflexivity|]. rewrite IHn. ring. Qed.

Lemma sumval_app rho a b : sumval rho (a ++ b) == sumval rho a + sumval rho b.
Proof. induction a; simpl; [ring|]. rewrite IHa. ring. Qed.
Lemma sumval_rev rho a : sumval rho (rev a) == sumval rho a.
Proof. induction a; simpl; [reflexivity|]. rewrite sumval_app. simpl. rewrite IHa. ring. Qed.
Lemma sumval_perm rho a b : Permutation a b -> sumval rho a == sumval rho b.
Proof. induction 1; simpl; try lra. Qed.
Lemma tval_app rho a b : tval rho (a ++ b) == tval rho a * tval rho b.
Proof. induction a; simpl; [ring|]. rewrite IHa. ring. Qed.
Lemma tval_rev rho a : tval rho (rev a) == tval rho a.
Proof. induction a; simpl; [reflexivity|]. rewrite tval_app. simpl. rewrite IHa. ring. Qed.
Lemma tval_perm rho a b : Permutation a b -> tval rho a == tval rho b.
Proof.
  induction 1 as [|x a b H IH|x y a|a b c H1 IH1 H2 IH2]; simpl.
  - reflexivity.
  - rewrite IH. reflexivity.
  - ring.
  - now rewrite IH1.
Qed.
Lemma tval_ext rho rho' ts : (forall t, In t ts -> rho (t_var t) == rho' (t_var t)) -> tval rho ts == tval rho' ts.
Proof.
  induction ts as [|t r IH]; simpl; intros H; [reflexivity|].
  rewrite IH by (intros; apply H; auto). rewrite (power_comp _ (rho' (t_var t))) by (apply H; auto). reflexivity.
Qed.
Lemma sumval_ext rho rho' ms : (forall m t, In m ms -> In t (m_terms m) -> rho (t_var t) == rho' (t_var t)) -> sumval rho ms == sumval rho' ms.
Proof.
  induction ms as [|m r IH]; simpl; intros H; [reflexivity|].
  rewrite IH by (intros; eapply H; eauto). unfold mval. rewrite (tval_ext rho rho') by (intros; eapply H; eauto). reflexivity.
Qed.

Lemma term_eqb_ok a b : term_eqb a b = true <-> a = b.
Proof.
  unfold term_eqb. destruct a as [v k], b as [v' k']; simpl. rewrite Bool.andb_true_iff, N.eqb_eq, Nat.eqb_eq. split; [intros [-> ->]; reflexivity|]. injection 1; auto.
Qed.
Lemma terms_eqb_ok a b : terms_eqb a b = true <-> a = b.
Proof.
  revert b. induction a as [|x a IH]; intros [|y b]; simpl; try (split; congruence).
  rewrite Bool.andb_true_iff, term_eqb_ok, IH. split; [intros [-> ->]; reflexivity|]. injection 1; auto.
Qed.

Lemma same_exponents m m' : distinct m -> (HasSameExponents m m' = true <-> alike m m').
Proof.
  intros D. unfold HasSameExponents, alike. rewrite Bool.andb_true_iff, Nat.eqb_eq, forallb_forall. split.
  - intros [L H]. apply NoDup_Permutation_bis.
    + unfold distinct in D. eapply NoDup_map_inv; eauto.
    + lia.
    + intros t Ht. specialize (H t Ht). apply existsb_exists in H. destruct H as (u & Hu & E). apply term_eqb_ok in E. subst; auto.
  - intros P. split; [apply Permutation_length; auto|]. intros t Ht. apply existsb_exists. exists t. split; [|apply term_eqb_ok; auto]. eapply Permutation_in; eauto.
Qed.

Lemma upd_first_some {A} (f : A -> bool) g l l' : upd_first f g l = Some l' ->
  exists a x b, l = a ++ x :: b /\ l' = a ++ g x :: b /\ f x = true /\ forallb (fun y => negb (f y)) a = true.
Proof.
  revert l'. induction l as [|x r IH]; simpl; intros l' H; [discriminate|].
  destruct (f x) eqn:E.
  - injection H as <-. exists [], x, r. auto.
  - destruct (upd_first f g r) as [r'|]; [|discriminate]. injection H as <-.
    destruct (IH _ eq_refl) as (a & y & b & -> & -> & Fy & Fa). exists (x :: a), y, b. simpl. rewrite E. auto.
Qed.
Lemma upd_first_none {A} (f : A -> bool) g l : upd_first f g l = None -> forall x, In x l -> f x = false.
Proof.
  induction l as [|x r IH]; simpl; [tauto|]. destruct (f x) eqn:E; [discriminate|].
  destruct (upd_first f g r); [discriminate|]. intros _ y [<-|H]; auto.
Qed.

(** What one merge does. *)
Lemma merge_value rho m l l' : distinct m ->
  upd_first (HasSameExponents m) (add_coef (m_coef m)) l = Some l' -> sumval rho l' == sumval rho l + mval rho m.
Proof.
  intros D H. apply upd_first_some in H. destruct H as (a & x & b & -> & -> & E & _).
  apply same_exponents in E; auto. rewrite !sumval_app. simpl. unfold mval, add_coef. simpl.
  rewrite (tval_perm rho _ _ E). ring.
Qed.
Lemma merge_terms_same m l l' : upd_first (HasSameExponents m) (add_coef (m_coef m)) l = Some l' -> map m_terms l' = map m_terms l.
Proof.
  intros H. apply upd_first_some in H. destruct H as (a & x & b & -> & -> & _ & _). rewrite !map_app. reflexivity.
Qed.

(** Properties of a monomial that only depend on its terms. *)
Lemma forall_terms (P : list term -> Prop) l l' : map m_terms l' = map m_terms l ->
  Forall (fun m => P (m_terms m)) l -> Forall (fun m => P (m_terms m)) l'.
Proof.
  intros E H. rewrite Forall_forall in *. intros m Hm.
  assert (I : In (m_terms m) (map m_terms l)) by (rewrite <- E; apply in_map; auto).
  apply in_map_iff in I. destruct I as (m' & <- & I). auto.
Qed.
Lemma map_terms_rev l l' : map m_terms l' = map m_terms (rev l) -> map m_terms (rev l') = map m_terms l.
Proof. intros E. rewrite map_rev, E, map_rev, rev_involutive. reflexivity. Qed.

Lemma mmu_value rho : forall n pre post uv univ, List.length pre = n -> Forall distinct pre ->
  sumval rho (fst (mmu n pre post uv univ)) == sumval rho pre + sumval rho post.
Proof.
  induction n as [|n IH]; intros pre post uv univ L D.
  - destruct pre; [|discriminate]. simpl. ring.
  - destruct pre as [|m rest]; [discriminate|]. injection L as L. inversion D as [|? ? Dm Dr]; subst.
    cbn [mmu]. destruct (Qeq_bool (m_coef m) 0) eqn:Z.
    + rewrite IH by auto. apply Qeq_bool_iff in Z. cbn [sumval]. unfold mval. rewrite Z. ring.
    + destruct (look m uv univ) as [uv' univ']. destruct (upd_first _ _ (rev rest)) as [r'|] eqn:E.
      * rewrite IH.
        { rewrite sumval_rev, (merge_value rho m _ _ Dm E), sumval_rev. cbn [sumval]. ring. }
        { rewrite rev_length. pose proof (merge_terms_same _ _ _ E) as T. apply (f_equal (@List.length _)) in T.
          rewrite !map_length, rev_length in T. exact T. }
        { eapply (forall_terms (fun ts => NoDup (map t_var ts))); [|exact Dr]. apply map_terms_rev. eapply merge_terms_same; eauto. }
      * rewrite IH by auto. cbn [sumval]. ring.
Qed.

Lemma unique_value rho p : Forall distinct (p_monos p) -> value rho (MakeMonomialsUnique p) == value rho p.
Proof.
  intros D. unfold value, MakeMonomialsUnique. destruct (mmu _ _ _ _ _) as [ms u] eqn:E. cbn [p_monos].
  change ms with (fst (ms, u)). rewrite <- E, mmu_value.
  - rewrite sumval_rev. cbn [sumval]. ring.
  - apply rev_length.
  - apply Forall_rev. exact D.
Qed.

(** The monomials that come out. *)
Definition fine (post : list mono) (uv : N) (univ : bool) : Prop :=
  Forall proper post /\ ForallOrdPairs (fun a b => ~ alike a b) post /\ Forall (fun m => ~ m_coef m == 0) post /\
  (univ = true -> Forall (fun m => m_terms m = [] \/ exists k, (0 < k)%nat /\ (0 < uv)%N /\ m_terms m = [Term uv k]) post).

Lemma look_univ m uv univ uv' : proper m -> look m uv univ = (uv', true) ->
  univ = true /\ (m_terms m = [] \/ exists k, (0 < k)%nat /\ (0 < uv')%N /\ m_terms m = [Term uv' k]) /\ (uv' = uv \/ uv = 0%N).
Proof.
  intros [D P] H. unfold look in H. destruct (m_terms m) as [|t r] eqn:E.
  - injection H as -> ->. auto.
  - destruct (P t) as [Pp Pv]; [left; auto|]. destruct t as [v k]. simpl in *.
    destruct (N.eqb_spec v uv) as [->|Nv].
    + injection H as H1 H2; subst. destruct r; [|discriminate]. split; [auto|]. split; [|auto]. right. exists k; auto.
    + destruct (N.ltb_spec 0 uv); [discriminate|]. injection H as H1 H2; subst. destruct r; [|discriminate]. split; [auto|]. split; [right; exists k; auto|]. right. lia.
Qed.

Lemma only_grow uv uv' post : (uv' = uv \/ uv = 0%N) ->
  Forall (fun m => m_terms m = [] \/ exists k, (0 < k)%nat /\ (0 < uv)%N /\ m_terms m = [Term uv k]) post ->
  Forall (fun m => m_terms m = [] \/ exists k, (0 < k)%nat /\ (0 < uv')%N /\ m_terms m = [Term uv' k]) post.
Proof.
  intros [->| ->] H; [exact H|]. eapply Forall_impl; [|exact H]. intros m [E|(k & Hk & Hv & _)]; [auto|lia].
Qed.

Lemma in_terms (l l' : list mono) m : map m_terms l' = map m_terms l -> In m l' -> exists m', In m' l /\ m_terms m' = m_terms m.
Proof.
  intros E H. apply (in_map m_terms) in H. rewrite E in H. apply in_map_iff in H. destruct H as (m' & A & B). eauto.
Qed.

Lemma mmu_fine : forall n pre post uv univ, List.length pre = n -> Forall proper pre -> fine post uv univ ->
  (forall a b, In a pre -> In b post -> ~ alike a b) ->
  exists uv', fine (fst (mmu n pre post uv univ)) uv' (snd (mmu n pre post uv univ)) /\ (snd (mmu n pre post uv univ) = true -> univ = true).
Proof.
  induction n as [|n IH]; intros pre post uv univ L D F X.
  - destruct pre; [|discriminate]. simpl. eauto.
  - destruct pre as [|m rest]; [discriminate|]. injection L as L. inversion D as [|? ? Dm Dr]; subst.
    cbn [mmu]. destruct (Qeq_bool (m_coef m) 0) eqn:Z.
    + apply IH; auto. intros a b Ha. apply X. right; auto.
    + destruct (look m uv univ) as [uv' univ'] eqn:Lk. destruct F as (F1 & F2 & F3 & F4).
      assert (F' : univ' = true -> univ = true) by (intros ->; destruct (look_univ _ _ _ _ Dm Lk); auto).
      assert (Fpost : fine post uv' univ').
      { split; [auto|]. split; [auto|]. split; [auto|]. intros ->. destruct (look_univ _ _ _ _ Dm Lk) as (-> & _ & G). eapply only_grow; eauto. }
      destruct (upd_first _ _ (rev rest)) as [r'|] eqn:E.
      * pose proof (merge_terms_same _ _ _ E) as T. pose proof (map_terms_rev _ _ T) as T'.
        destruct (IH (rev r') post uv' univ') as (w & Hw & Hu).
        { rewrite rev_length. apply (f_equal (@List.length _)) in T. rewrite !map_length, rev_length in T. exact T. }
        { eapply (forall_terms (fun ts => NoDup (map t_var ts) /\ forall t, In t ts -> (0 < t_pow t)%nat /\ (0 < t_var t)%N)); [exact T'|exact Dr]. }
        { exact Fpost. }
        { intros a b Ha Hb. destruct (in_terms _ _ _ T' Ha) as (a' & Ha' & Et). unfold alike. rewrite <- Et. apply (X a' b); [right; auto|auto]. }
        exists w. split; [exact Hw|]. auto.
      * destruct (IH rest (m :: post) uv' univ') as (w & Hw & Hu); auto.
        { split; [constructor; auto|]. split.
          { constructor; [|exact F2]. rewrite Forall_forall. intros b Hb. apply X; [left; auto|auto]. }
          split.
          { constructor; [|auto]. intros Z'. apply Qeq_bool_iff in Z'. congruence. }
          intros ->. destruct (look_univ _ _ _ _ Dm Lk) as (-> & O & G). constructor; [exact O|]. destruct Fpost as (_ & _ & _ & Fp). auto. }
        { intros a b Ha [<-|Hb]; [|apply X; [right; auto|auto]].
          intros Al. pose proof (upd_first_none _ _ _ E a) as Nn. rewrite <- in_rev in Nn. specialize (Nn Ha).
          apply Permutation_sym in Al. apply (same_exponents m a) in Al; [congruence|]. apply Dm. }
        exists w. split; [exact Hw|]. auto.
Qed.

Lemma unique_good p : Forall proper (p_monos p) ->
  good (MakeMonomialsUnique p) /\ Forall (fun m => ~ m_coef m == 0) (p_monos (MakeMonomialsUnique p)) /\
  (p_univ (MakeMonomialsUnique p) = true -> p_univ p = true).
Proof.
  intros D. unfold MakeMonomialsUnique.
  destruct (mmu_fine (List.length (p_monos p)) (rev (p_monos p)) [] 0%N (p_univ p)) as (w & (F1 & F2 & F3 & F4) & Hu).
  - apply rev_length.
  - apply Forall_rev; auto.
  - repeat split; try constructor.
  - intros a b _ [].
  - destruct (mmu _ _ _ _ _) as [ms u]. cbn [fst snd p_monos p_univ] in *. split; [|auto]. split; [exact F1|]. split; [exact F2|].
    cbn [p_univ p_monos]. intros ->. specialize (F4 eq_refl).
    destruct (N.eq_dec w 0) as [->|Nw].
    + exists 1%N. split; [lia|]. eapply Forall_impl; [|exact F4]. intros m [E|(k & _ & Hw & _)]; [left; auto|lia].
    + exists w. split; [lia|]. eapply Forall_impl; [|exact F4]. intros m [E|(k & Hk & Hw & E)]; [left; auto|right; exists k; auto].
Qed.
