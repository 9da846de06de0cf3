(** Properties C70, C71, C72: drake's Polynomial. *)
From Coq Require Import List QArith Qabs NArith Bool Arith Lia Lqa Permutation String.
From Verif Require Import Base Maps Poly_Model Poly_Spec Poly_Proofs Poly_Proofs2 Poly_Proofs3 Poly_Proofs4 Poly_Proofs5.
Import ListNotations.

(** ** C70: the operators compute with polynomials *)

(** The operators as called on polynomials. *)
Fixpoint run (e : expr) : poly :=
  match e with
  | EConst c => poly_const c | EVar c v => poly_var c v
  | EAdd a b => padd (run a) (run b) | ESub a b => psub (run a) (run b) | EMul a b => pmul (run a) (run b) | ENeg a => popp (run a)
  | EAddS a c => padd_scalar (run a) c | ESubS a c => psub_scalar (run a) c | ESSub c a => scalar_psub c (run a)
  | EMulS a c => pmul_scalar (run a) c | EDivS a c => pdiv_scalar (run a) c
  | EPow a n => ppow (run a) n
  end.

Lemma same_terms_good p q : map m_terms (p_monos q) = map m_terms (p_monos p) -> p_univ q = p_univ p -> good p -> good q.
Proof.
  intros T U (P & C & O). split; [|split].
  - eapply (forall_terms (fun ts => NoDup (map t_var ts) /\ forall t, In t ts -> (0 < t_pow t)%nat /\ (0 < t_var t)%N)); eauto.
  - unfold combined in *. revert T C. generalize (p_monos p) as l, (p_monos q) as l'. clear. intros l l'. revert l.
    induction l' as [|m r IH]; intros [|m' r'] T C; cbn [map] in T; try discriminate; [constructor|].
    injection T as E T. inversion C as [|? ? A B]; subst. constructor; [|eapply IH; eauto]. rewrite Forall_forall in *. intros x I.
    destruct (in_terms _ _ _ T I) as (x' & I' & Ex). unfold alike. rewrite E, <- Ex. apply (A x' I').
  - rewrite U. intros H. destruct (O H) as (v & Hv & F). exists v. split; [auto|]. eapply (forall_terms (fun ts => ts = [] \/ exists k, (0 < k)%nat /\ ts = [Term v k])); eauto.
Qed.
Lemma same_terms_in_var v p q : map m_terms (p_monos q) = map m_terms (p_monos p) -> p_univ q = p_univ p -> in_var v p -> in_var v q.
Proof. intros T U [F H]. split; [|congruence]. eapply (forall_terms (fun ts => ts = [] \/ exists k, (0 < k)%nat /\ ts = [Term v k])); eauto. Qed.
Lemma map_coef_terms f p : map m_terms (p_monos (map_coef f p)) = map m_terms (p_monos p).
Proof. unfold map_coef. cbn [p_monos]. rewrite map_map. reflexivity. Qed.
(** Adding a constant. *)
Lemma constant_good (g : mono -> mono) c p : (forall m, m_terms (g m) = m_terms m) -> good p ->
  good (match upd_first is_constant g (p_monos p) with Some ms => Poly ms (p_univ p) | None => Poly (p_monos p ++ [Mono c []]) (p_univ p) end).
Proof.
  intros G (P & C & O). destruct (upd_first _ _ _) as [l|] eqn:E.
  - apply upd_first_some in E. destruct E as (a & x & b & El & -> & _ & _). apply (same_terms_good p); [|reflexivity|split; auto].
    cbn [p_monos]. rewrite El, !map_app. cbn [map]. rewrite G. reflexivity.
  - pose proof (upd_first_none _ _ _ E) as Nn. split; [|split]; cbn [p_monos p_univ].
    + apply Forall_app; split; [auto|]. constructor; [|constructor]. split; [constructor|intros t []].
    + unfold combined in *. cbn [p_monos]. revert C Nn. generalize (p_monos p). clear. induction l as [|m r IH]; intros C Nn; cbn [app]; [constructor; constructor|].
      inversion C as [|? ? A B]; subst. constructor; [|apply IH; [auto|intros; apply Nn; right; auto]]. apply Forall_app; split; [auto|]. constructor; [|constructor].
      specialize (Nn m (or_introl eq_refl)). unfold is_constant in Nn. intros Al. unfold alike in Al. cbn [m_terms] in Al. apply Permutation_sym, Permutation_nil in Al. rewrite Al in Nn. discriminate.
    + intros U. destruct (O U) as (v & Hv & F). exists v. split; [auto|]. apply Forall_app; split; [auto|]. constructor; [left; reflexivity|constructor].
Qed.
Lemma constant_in_var (g : mono -> mono) c p v : (forall m, m_terms (g m) = m_terms m) -> in_var v p ->
  in_var v (match upd_first is_constant g (p_monos p) with Some ms => Poly ms (p_univ p) | None => Poly (p_monos p ++ [Mono c []]) (p_univ p) end).
Proof.
  intros G [F U]. destruct (upd_first _ _ _) as [l|] eqn:E.
  - apply upd_first_some in E. destruct E as (a & x & b & El & -> & _ & _). apply (same_terms_in_var v p); [|reflexivity|split; auto].
    cbn [p_monos]. rewrite El, !map_app. cbn [map]. rewrite G. reflexivity.
  - split; [|exact U]. cbn [p_monos]. apply Forall_app; split; [auto|]. constructor; [left; reflexivity|constructor].
Qed.
Lemma good_var c v : (0 < v)%N -> good (poly_var c v).
Proof.
  intros Hv. split; [|split]; cbn [p_monos poly_var].
  - constructor; [|constructor]. apply (only_proper v); [auto|]. right. exists 1%nat. auto.
  - unfold combined. cbn [p_monos]. constructor; constructor.
  - intros _. exists v. split; [auto|]. constructor; [|constructor]. right. exists 1%nat. auto.
Qed.
Lemma good_const c : good (poly_const c).
Proof.
  split; [apply const_proper|]. split; [constructor; constructor|]. intros _. exists 1%N. split; [lia|]. constructor; [left; reflexivity|constructor].
Qed.
Lemma good_ppow p n : good p -> good (ppow p n).
Proof.
  intros (P & _). unfold ppow. generalize (S n) as f. intros f. destruct f as [|f]; cbn [ppow_fuel]; [apply good_const|]. destruct (Nat.eqb n 0); [apply good_const|].
  pose proof (ppow_fuel_distinct f p (Nat.div2 n) (proper_distinct _ P) P) as H.
  destruct (Nat.odd n); apply unique_good; cbn [p_monos]; apply mul_all_proper; auto. apply (unique_good (Poly _ _)). cbn [p_monos]. apply mul_all_proper; auto.
Qed.

(** Whatever is computed with the operators is the polynomial the expression means; its
    monomials are products of distinct variables, no two alike, and it is univariate
    whenever it is written with one variable. *)
Theorem expressions_mean_arithmetic : forall e, vars_in (fun v => (0 < v)%N) e ->
  good (run e) /\ (forall rho, value rho (run e) == denote rho e) /\
  (forall v, vars_in (eq v) e -> p_univ (run e) = true).
Proof.
  intros e W. assert (V : good (run e) /\ (forall rho, value rho (run e) == denote rho e)).
  { induction e as [c|c v|a IHa b IHb|a IHa b IHb|a IHa b IHb|a IHa|a IHa c|a IHa c|c a IHa|a IHa c|a IHa c|a IHa n]; cbn [run denote vars_in] in *.
    - split; [apply good_const|]. intros rho. unfold value. cbn. unfold mval. cbn. ring.
    - split; [apply good_var; auto|]. intros rho. unfold value. cbn. unfold mval. cbn. ring.
    - destruct W as [Wa Wb]. destruct (IHa Wa) as [Ga Va], (IHb Wb) as [Gb Vb]. split.
      + apply unique_good. cbn [p_monos]. apply Forall_app; split; [apply Ga|apply Gb].
      + intros rho. rewrite padd_value, Va, Vb; [reflexivity| |]; apply proper_distinct; [apply Ga|apply Gb].
    - destruct W as [Wa Wb]. destruct (IHa Wa) as [Ga Va], (IHb Wb) as [Gb Vb]. split.
      + apply unique_good. cbn [p_monos]. apply Forall_app; split; [apply Ga|]. rewrite Forall_map. apply Gb.
      + intros rho. rewrite psub_value, Va, Vb; [reflexivity| |]; apply proper_distinct; [apply Ga|apply Gb].
    - destruct W as [Wa Wb]. destruct (IHa Wa) as [Ga Va], (IHb Wb) as [Gb Vb]. split.
      + apply unique_good. cbn [p_monos]. apply mul_all_proper; [apply Ga|apply Gb].
      + intros rho. rewrite pmul_value, Va, Vb; [reflexivity|]. apply proper_distinct, Ga.
    - destruct (IHa W) as [Ga Va]. split; [apply (same_terms_good (run a)); auto; apply map_coef_terms|].
      intros rho. unfold popp, map_coef, value. cbn [p_monos]. rewrite (sumval_map_coef rho Qopp (-1)) by (intros; ring). fold (value rho (run a)). rewrite Va. ring.
    - destruct (IHa W) as [Ga Va]. split; [apply constant_good; auto|]. intros rho. rewrite padd_scalar_value, Va. reflexivity.
    - destruct (IHa W) as [Ga Va]. split; [apply constant_good; auto|]. intros rho. rewrite psub_scalar_value, Va. reflexivity.
    - destruct (IHa W) as [Ga Va]. split.
      + apply constant_good; [auto|]. apply (same_terms_good (run a)); auto. apply map_coef_terms.
      + intros rho. unfold scalar_psub. rewrite padd_scalar_value. unfold popp, map_coef, value. cbn [p_monos]. rewrite (sumval_map_coef rho Qopp (-1)) by (intros; ring).
        fold (value rho (run a)). rewrite Va. ring.
    - destruct (IHa W) as [Ga Va]. split; [apply (same_terms_good (run a)); auto; apply map_coef_terms|].
      intros rho. unfold pmul_scalar, map_coef, value. cbn [p_monos]. rewrite (sumval_map_coef rho (fun x => x * c) c) by (intros; ring). fold (value rho (run a)). rewrite Va. ring.
    - destruct W as [W Hc]. destruct (IHa W) as [Ga Va]. split; [apply (same_terms_good (run a)); auto; apply map_coef_terms|].
      intros rho. unfold pdiv_scalar, map_coef, value. cbn [p_monos]. rewrite (sumval_map_coef rho (fun x => x / c) (/ c)) by (intros; reflexivity). fold (value rho (run a)). rewrite Va. reflexivity.
    - destruct (IHa W) as [Ga Va]. split; [apply good_ppow; auto|]. intros rho. unfold ppow. rewrite ppow_fuel_value by (auto; try apply Ga). apply power_comp, Va. }
  destruct V as [G V]. split; [exact G|]. split; [exact V|]. intros v Wv.
  destruct (N.eq_dec v 0) as [->|Nv].
  - assert (X : forall e, vars_in (fun w => (0 < w)%N) e -> vars_in (eq 0%N) e -> in_var 1 (run e)).
    { clear. induction e; cbn [run vars_in]; intros; try (apply in_var_const); try lia;
        repeat match goal with H : _ /\ _ |- _ => destruct H end; auto using in_var_padd, in_var_psub, in_var_pmul.
      - apply in_var_padd; [lia|auto|auto].
      - apply in_var_psub; [lia|auto|auto].
      - apply in_var_pmul; [lia|auto|auto].
      - apply (same_terms_in_var 1 (run e)); auto; apply map_coef_terms.
      - apply constant_in_var; auto.
      - apply constant_in_var; auto.
      - apply constant_in_var; auto. apply (same_terms_in_var 1 (run e)); auto; apply map_coef_terms.
      - apply (same_terms_in_var 1 (run e)); auto; apply map_coef_terms.
      - apply (same_terms_in_var 1 (run e)); auto; apply map_coef_terms.
      - apply in_var_ppow; [lia|auto]. }
    apply (X e W Wv).
  - assert (Hv : (0 < v)%N) by lia.
    assert (X : forall e, vars_in (eq v) e -> in_var v (run e)).
    { clear - Hv. induction e; cbn [run vars_in]; intros; try (apply in_var_const);
        repeat match goal with H : _ /\ _ |- _ => destruct H end.
      - subst. split; [constructor; [right; exists 1%nat; auto|constructor]|reflexivity].
      - apply in_var_padd; auto.
      - apply in_var_psub; auto.
      - apply in_var_pmul; auto.
      - apply (same_terms_in_var v (run e)); auto; apply map_coef_terms.
      - apply constant_in_var; auto.
      - apply constant_in_var; auto.
      - apply constant_in_var; auto. apply (same_terms_in_var v (run e)); auto; apply map_coef_terms.
      - apply (same_terms_in_var v (run e)); auto; apply map_coef_terms.
      - apply (same_terms_in_var v (run e)); auto; apply map_coef_terms.
      - apply in_var_ppow; auto. }
    apply (X e Wv).
Qed.
Print Assumptions expressions_mean_arithmetic.

(** (x + 2)^2 - 4x = x^2 + 4, without a term in x. *)
Example expression_example :
  run (ESub (EPow (EAddS (EVar 1 56) 2) 2) (EVar 4 56)) = Poly [Mono 1 [Term 56 2]; Mono 4 []] true.
Proof. vm_compute. reflexivity. Qed.

(** A sum, difference or product of polynomials whose monomials have distinct variables holds
    no zero coefficient and no two monomials alike. *)
Theorem like_monomials_combine : forall a b, Forall proper (p_monos a) -> Forall proper (p_monos b) ->
  forall p, p = padd a b \/ p = psub a b \/ p = pmul a b ->
  combined p /\ Forall proper (p_monos p) /\ Forall (fun m => ~ m_coef m == 0) (p_monos p).
Proof.
  intros a b A B p H.
  assert (X : exists q, Forall proper (p_monos q) /\ p = MakeMonomialsUnique q).
  { destruct H as [->|[->| ->]]; eexists; (split; [|reflexivity]); cbn [p_monos].
    - apply Forall_app; auto.
    - apply Forall_app; split; auto. rewrite Forall_map. exact B.
    - apply mul_all_proper; auto. }
  destruct X as (q & P & ->). destruct (unique_good q P) as ((G1 & G2 & _) & Z & _). auto.
Qed.
Print Assumptions like_monomials_combine.
Example combine_example : p_monos (padd (poly_terms 3 [Term 8 2; Term 10 1]) (poly_terms (3 # 2) [Term 10 1; Term 8 2])) = [Mono (9 # 2) [Term 8 2; Term 10 1]].
Proof. vm_compute. reflexivity. Qed.

(** A monomial with a repeated variable is told from no other of as many factors: x*y + x*x is 2*x*y. *)
Theorem addition_refuted : exists a b rho, a = poly_terms 1 [Term 56 1; Term 58 1] /\ b = poly_terms 1 [Term 56 1; Term 56 1] /\
  ~ value rho (padd a b) == value rho a + value rho b.
Proof.
  eexists _, _, (fun v => if N.eqb v 56 then 1 else 2). split; [reflexivity|]. split; [reflexivity|]. vm_compute. discriminate.
Qed.
Print Assumptions addition_refuted.

(** The constructor from terms has the value of their product, merging what it merges... *)
Theorem constructor_value : forall rho c ts, value rho (poly_terms c ts) == c * tval rho ts.
Proof. exact poly_terms_value. Qed.
Print Assumptions constructor_value.
(** ... and is a documented polynomial when the variables are distinct. *)
Theorem constructor_good : forall c ts, NoDup (map t_var ts) -> (forall t, In t ts -> (0 < t_pow t)%nat /\ (0 < t_var t)%N) -> good (poly_terms c ts).
Proof.
  intros c ts D P. rewrite poly_terms_distinct by exact D. split; [|split]; cbn [p_monos p_univ].
  - constructor; [split; auto|constructor].
  - constructor; constructor.
  - destruct ts as [|t [|u r]]; intros H; [| |discriminate].
    + exists 1%N. split; [lia|]. constructor; [left; reflexivity|constructor].
    + exists (t_var t). destruct (P t (or_introl eq_refl)) as [Pp Pv]. split; [auto|]. constructor; [|constructor]. right. exists (t_pow t). destruct t; auto.
Qed.
Print Assumptions constructor_good.
Example constructor_good_example : good (poly_terms 5 [Term 56 1; Term 58 3]) /\ p_univ (poly_terms 5 [Term 56 1; Term 58 3]) = false.
Proof.
  split; [|reflexivity]. apply constructor_good.
  - repeat constructor; simpl; intuition discriminate.
  - intros t [<-|[<-|[]]]; simpl; lia.
Qed.

(** Duplicates side by side are not merged: x*x keeps two factors, counts as univariate, and is
    then evaluated, differentiated and read as x. *)
Theorem constructor_merges_refuted : exists ts p, p = poly_terms 1 ts /\ ~ Forall distinct (p_monos p) /\ p_univ p = true /\
  value (fun _ => 3) p == 9 /\ EvaluateUnivariate p 3 0 = Ok 3 /\
  (exists d, Derivative p 1 = Ok d /\ value (fun _ => 3) d == 3) /\ GetCoefficients p = Ok [0; 1].
Proof.
  exists [Term 56 1; Term 56 1]. eexists. split; [reflexivity|]. vm_compute p_monos. split.
  { intros F. inversion F as [|? ? D _]; subst. unfold distinct in D. cbn in D. inversion D as [|? ? I _]; subst. apply I. left; auto. }
  split; [reflexivity|]. split; [vm_compute; reflexivity|]. split; [vm_compute; reflexivity|]. split; [eexists; split; [reflexivity|vm_compute; reflexivity]|]. vm_compute. reflexivity.
Qed.
Print Assumptions constructor_merges_refuted.

(** EvaluateMultivariate is the value, and throws exactly when a variable has none. *)
Theorem evaluate_multivariate : forall p vals,
  (forall rho x, EvaluateMultivariate p vals = Ok x -> x == value (reads vals rho) p) /\
  ((forall v, occurs v p -> In v (map fst vals)) -> exists x, EvaluateMultivariate p vals = Ok x) /\
  ((exists v, occurs v p /\ ~ In v (map fst vals)) -> EvaluateMultivariate p vals = Throw).
Proof.
  intros p vals. split; [|split].
  - intros rho x H. apply (eval_monos_ok vals rho) in H. rewrite H. unfold value. ring.
  - intros H. apply eval_monos_def. intros m t I J. apply H. exists m, t. auto.
  - intros (v & (m & t & I & J & E) & F). apply (eval_monos_throw vals _ _ m t I J). congruence.
Qed.
Print Assumptions evaluate_multivariate.
Example evaluate_multivariate_example : EvaluateMultivariate (padd (poly_terms 2 [Term 56 1; Term 58 2]) (poly_const 1)) [(58%N, 3); (56%N, 5)] = Ok 91.
Proof. vm_compute. reflexivity. Qed.

(** EvaluatePartial gives the variables of the map their values and leaves the rest. *)
Theorem evaluate_partial : forall p vals, Forall proper (p_monos p) ->
  (forall rho, value rho (EvaluatePartial p vals) == value (reads vals rho) p) /\
  good (EvaluatePartial p vals) /\
  (forall v, occurs v (EvaluatePartial p vals) -> occurs v p /\ ~ In v (map fst vals)).
Proof.
  intros p vals P. assert (P' : Forall proper (p_monos (Poly (map (partial_mono vals) (p_monos p)) true))).
  { cbn [p_monos]. rewrite Forall_map. eapply Forall_impl; [|exact P]. intros m; apply partial_proper. }
  split; [|split].
  - intros rho. unfold EvaluatePartial, poly_monos. rewrite unique_value by (apply proper_distinct; auto). unfold value. cbn [p_monos]. apply partial_sum.
  - apply unique_good; auto.
  - intros v (m & t & I & J & E). apply unique_terms in I. destruct I as (m' & I & Em). cbn [p_monos] in I. apply in_map_iff in I. destruct I as (m0 & <- & I0).
    rewrite <- Em, partial_mono_terms in J. apply filter_In in J. destruct J as [J F]. split; [exists m0, t; auto|].
    intros X. apply mfind_in in X. rewrite <- E in X. destruct (mfind N.eqb (t_var t) vals); [discriminate|congruence].
Qed.
Print Assumptions evaluate_partial.
Example evaluate_partial_example : p_monos (EvaluatePartial (padd (poly_terms 2 [Term 56 1; Term 58 2]) (poly_terms 3 [Term 58 2])) [(56%N, 5)]) = [Mono 13 [Term 58 2]].
Proof. vm_compute. reflexivity. Qed.

(** Subs renames a variable. *)
Theorem subs_renames : forall p a b rho, value rho (Subs p a b) == value (put rho a (rho b)) p.
Proof. intros p a b rho. unfold value, Subs. cbn [p_monos]. apply subs_sum. Qed.
Print Assumptions subs_renames.
(** But it does not combine what has become alike: x*y + 1 renamed is y*y + 1 with y twice, to which adding y*z gives 2*y*y... *)
Theorem subs_combines_refuted : exists p q rho, good p /\ good q /\ ~ combined (Subs (padd p (poly_var 1 58)) 56 58) /\
  ~ value rho (padd q (Subs (poly_terms 1 [Term 56 1; Term 58 1]) 56 58)) == value rho q + value rho (Subs (poly_terms 1 [Term 56 1; Term 58 1]) 56 58).
Proof.
  exists (poly_var 1 56), (poly_terms 1 [Term 58 1; Term 60 1]), (fun v => if N.eqb v 58 then 1 else 2).
  split; [apply good_var; lia|]. split.
  { apply constructor_good; [repeat constructor; simpl; intuition discriminate|]. intros t [<-|[<-|[]]]; simpl; lia. }
  split.
  - unfold combined. vm_compute p_monos. intros C. inversion C as [|? ? A _]; subst. inversion A as [|? ? X _]; subst. apply X. unfold alike. cbn. apply Permutation_refl.
  - vm_compute. discriminate.
Qed.
Print Assumptions subs_combines_refuted.

(** Substitute puts a polynomial for a variable, when the variable has no company in its monomials... *)
Theorem substitute_means : forall p v r, Forall proper (p_monos p) -> Forall proper (p_monos r) ->
  (forall m, In m (p_monos p) -> (exists t, In t (m_terms m) /\ t_var t = v) -> List.length (m_terms m) = 1%nat) ->
  forall rho, value rho (Substitute p v r) == value (put rho v (value rho r)) p.
Proof.
  intros p v r P R S rho. unfold Substitute.
  destruct (substitute_fold rho v r (p_monos p) R P) with (p := poly_zero) as [V _].
  - rewrite Forall_forall. intros m I. exact (S m I).
  - constructor.
  - rewrite V. unfold value. cbn [poly_zero p_monos sumval]. ring.
Qed.
Print Assumptions substitute_means.
Example substitute_example : p_monos (Substitute (padd (poly_terms 1 [Term 48 2]) (poly_var 3 48)) 48 (scalar_psub 2 (poly_var 1 48))) = [Mono 1 [Term 48 2]; Mono (-7) [Term 48 1]; Mono 10 []].
Proof. vm_compute. reflexivity. Qed.
(** ... and goes wrong otherwise: x*y with 2 for x gives 2 + 2*y. *)
Theorem substitute_refuted : exists p r rho, good p /\ good r /\ ~ value rho (Substitute p 56 r) == value (put rho 56 (value rho r)) p.
Proof.
  exists (poly_terms 1 [Term 56 1; Term 58 1]), (poly_const 2), (fun _ => 0). split.
  { apply constructor_good; [repeat constructor; simpl; intuition discriminate|]. intros t [<-|[<-|[]]]; simpl; lia. }
  split; [apply good_const|]. vm_compute. discriminate.
Qed.
Print Assumptions substitute_refuted.

(** Equal polynomials have equal values... *)
Theorem equal_same_value : forall a b, poly_eqb a b = true -> forall rho, value rho a == value rho b.
Proof. intros a b H rho. apply multiset_value, H. Qed.
Print Assumptions equal_same_value.
(** ... but x*y and y*x, always equal in value, are not equal, nor almost equal. *)
Theorem equality_refuted : exists a b, good a /\ good b /\ (forall rho, value rho a == value rho b) /\
  poly_eqb a b = false /\ CoefficientsAlmostEqual a b (1 # 2) kAbsolute = false.
Proof.
  exists (pmul (poly_var 1 56) (poly_var 1 58)), (pmul (poly_var 1 58) (poly_var 1 56)).
  destruct (expressions_mean_arithmetic (EMul (EVar 1 56) (EVar 1 58))) as (G1 & V1 & _); [cbn; lia|].
  destruct (expressions_mean_arithmetic (EMul (EVar 1 58) (EVar 1 56))) as (G2 & V2 & _); [cbn; lia|].
  split; [exact G1|]. split; [exact G2|]. split; [|split; vm_compute; reflexivity].
  intros rho. rewrite (V1 rho), (V2 rho). cbn [denote]. ring.
Qed.
Print Assumptions equality_refuted.

(** Almost equal polynomials have values within the tolerance times the size of the monomials. *)
Theorem almost_equal_values : forall a b tol ty rho, 0 <= tol -> CoefficientsAlmostEqual a b tol ty = true ->
  Qabs (value rho a - value rho b) <= tol * (slacks rho ty (p_monos a) + slacks rho ty (p_monos b)).
Proof. intros a b tol ty rho Ht H. apply almost_equal_bound; auto. Qed.
Print Assumptions almost_equal_values.
Theorem almost_equal_itself : forall p tol ty, 0 <= tol -> CoefficientsAlmostEqual p p tol ty = true.
Proof. intros. apply almost_equal_refl; auto. Qed.
Print Assumptions almost_equal_itself.
Example almost_equal_example : CoefficientsAlmostEqual (poly_coefs [1; 2]) (poly_coefs [1; 201 # 100; 1 # 200]) (1 # 100) kAbsolute = true
  /\ CoefficientsAlmostEqual (poly_coefs [1; 2]) (poly_coefs [1; 201 # 100; 1 # 200]) (1 # 100) kRelative = false
  /\ CoefficientsAlmostEqual (poly_coefs [1; 2]) (poly_coefs [1; 203 # 100]) (1 # 100) kAbsolute = false.
Proof. vm_compute. auto. Qed.

(** Factor divides a monomial by another, and gives 0 exactly when it does not divide. *)
Theorem factor_divides : forall m d, proper m -> proper d -> ~ m_coef d == 0 -> ~ m_coef m == 0 ->
  (m_coef (Factor m d) == 0 <-> ~ forall t, In t (m_terms d) -> exists u, In u (m_terms m) /\ t_var u = t_var t /\ (t_pow t <= t_pow u)%nat) /\
  (~ m_coef (Factor m d) == 0 -> forall rho, mval rho (Factor m d) * mval rho d == mval rho m).
Proof.
  intros m d [Dm Pm] [Dd Pd] Cd Cm. unfold Factor.
  assert (Q0 : ~ m_coef m / m_coef d == 0).
  { intros Z. apply Cm. rewrite <- (Qdiv_mult_l (m_coef m) (m_coef d)) by exact Cd. unfold Qdiv in *. rewrite <- Qmult_assoc, (Qmult_comm (m_coef d)), Qmult_assoc, Z. ring. }
  pose proof (factor_terms_some d (m_terms m)) as FS.
  destruct (factor_terms d (m_terms m)) as [qs|] eqn:F.
  - destruct (forallb _ (m_terms d)) eqn:A.
    + rewrite forallb_forall in A.
      assert (In' : forall t, In t (m_terms d) -> In (t_var t) (map t_var (m_terms m))).
      { intros t I. specialize (A t I). apply Bool.negb_true_iff, Nat.eqb_neq in A. rewrite GetDegreeOf_degof in A.
        destruct (in_dec N.eq_dec (t_var t) (map t_var (m_terms m))) as [X|X]; [auto|]. exfalso. apply A, degof_out, X. }
      split.
      * cbn [m_coef]. split; [tauto|]. intros H. exfalso. apply H. intros t I. pose proof (In' t I) as J. apply in_map_iff in J. destruct J as (u & E & J).
        exists u. split; [auto|]. split; [auto|]. destruct FS as [FS _]. specialize (FS (ex_intro _ qs eq_refl) u J). rewrite E, (degof_in _ t Dd I) in FS. exact FS.
      * intros _ rho. unfold mval. cbn [m_coef m_terms]. rewrite (factor_terms_value rho d _ _ F), (shared_all rho _ Dm _ Dd In'). field. exact Cd.
    + split; [|cbn [m_coef]; intros H; exfalso; apply H; reflexivity]. cbn [m_coef]. split; [|reflexivity]. intros _ H.
      assert (X : forallb (fun u => negb (Nat.eqb (GetDegreeOf m (t_var u)) 0)) (m_terms d) = true); [|congruence].
      apply forallb_forall. intros t I. destruct (H t I) as (u & J & E & L). rewrite GetDegreeOf_degof, <- E, (degof_in _ u Dm J).
      destruct (Pm u J). destruct (Nat.eqb_spec (t_pow u) 0); [lia|reflexivity].
  - split; [|cbn [m_coef]; intros H; exfalso; apply H; reflexivity]. cbn [m_coef]. split; [|reflexivity]. intros _ H.
    destruct FS as [_ FS]. destruct FS as [x X]; [|discriminate]. intros u J.
    destruct (in_dec N.eq_dec (t_var u) (map t_var (m_terms d))) as [I|I]; [|rewrite degof_out by exact I; lia].
    apply in_map_iff in I. destruct I as (t & E & I). destruct (H t I) as (u' & J' & E' & L). rewrite <- E, (degof_in _ t Dd I).
    rewrite <- (degof_in _ u' Dm J'), E', E, (degof_in _ u Dm J) in L. exact L.
Qed.
Print Assumptions factor_divides.
Example factor_example : Factor (Mono 6 [Term 56 3; Term 58 1]) (Mono 2 [Term 56 2; Term 58 1]) = Mono (6 / 2) [Term 56 1]
  /\ m_coef (Factor (Mono 6 [Term 56 3; Term 58 1]) (Mono 2 [Term 60 1])) = 0.
Proof. vm_compute. auto. Qed.

(** GetVariables lists each occurring variable once, in order. *)
Theorem variables_listed : forall p, (forall v, In v (GetVariables p) <-> occurs v p) /\ increasing (GetVariables p).
Proof.
  intros p. split.
  - intros v. unfold GetVariables. rewrite vars_monos. split; [intros [[]|H]; exact H|auto].
  - apply vars_inc. constructor.
Qed.
Print Assumptions variables_listed.
(** IsAffine tells the polynomials with at most one first power in each monomial. *)
Theorem affine_iff : forall p, Forall proper (p_monos p) ->
  (IsAffine p = true <-> forall m, In m (p_monos p) -> m_terms m = [] \/ exists v, m_terms m = [Term v 1]).
Proof.
  intros p P. unfold IsAffine. rewrite forallb_forall. rewrite Forall_forall in P. split; intros H m I; specialize (H m I).
  - apply Bool.negb_true_iff, Bool.orb_false_iff in H. destruct H as [H1 H2]. apply Nat.ltb_ge in H1, H2. destruct (P m I) as [_ Pm]. unfold MonoDegree in H2.
    destruct (m_terms m) as [|[v k] [|u r]]; [auto| |simpl in H1; lia]. right. exists v. destruct (Pm (Term v k) (or_introl eq_refl)) as [Pk _]. cbn in *. replace k with 1%nat by lia. reflexivity.
  - unfold MonoDegree. destruct H as [->|(v & ->)]; reflexivity.
Qed.
Print Assumptions affine_iff.
Example affine_example : IsAffine (poly_coefs [1; 2]) = true /\ IsAffine (poly_coefs [1; 2; 3]) = false /\ IsAffine (poly_terms 1 [Term 56 1; Term 58 1]) = false.
Proof. vm_compute. auto. Qed.

(** ** C71: derivatives, integrals and coefficients of univariate polynomials *)

(** There is only one slope. *)
Theorem slope_unique : forall f x a b, slope f x a -> slope f x b -> a == b.
Proof.
  intros f x a b HA HB. apply slope_bound in HA, HB. destruct HA as (A & A0 & HA), HB as (B & B0 & HB).
  destruct (Q_dec a b) as [[L|L]|E]; [exfalso|exfalso|exact E].
  - set (e := b - a) in *. assert (E0 : 0 < e) by (unfold e; lra).
    set (h := e / (2 * (A + B + e + 1))).
    assert (D0 : 0 < 2 * (A + B + e + 1)) by lra.
    assert (H0 : 0 < h) by (apply Qlt_shift_div_l; lra). assert (H1 : h <= 1) by (apply Qle_shift_div_r; lra).
    assert (Hh : h * (2 * (A + B + e + 1)) == e) by (unfold h; field; lra).
    specialize (HA h ltac:(lra)). specialize (HB h ltac:(lra)). apply Qabs_Qle_condition in HA, HB.
    assert (T : h * b - h * a <= A * (h * h) + B * (h * h)) by (destruct HA, HB; lra).
    assert (M : 0 < h * (e - h * (A + B))) by (apply Qmult_lt_0_compat; [exact H0|]; nra). unfold e in M at 1. nra.
  - set (e := a - b) in *. assert (E0 : 0 < e) by (unfold e; lra).
    set (h := e / (2 * (A + B + e + 1))).
    assert (D0 : 0 < 2 * (A + B + e + 1)) by lra.
    assert (H0 : 0 < h) by (apply Qlt_shift_div_l; lra). assert (H1 : h <= 1) by (apply Qle_shift_div_r; lra).
    assert (Hh : h * (2 * (A + B + e + 1)) == e) by (unfold h; field; lra).
    specialize (HA h ltac:(lra)). specialize (HB h ltac:(lra)). apply Qabs_Qle_condition in HA, HB.
    assert (T : h * a - h * b <= A * (h * h) + B * (h * h)) by (destruct HA, HB; lra).
    assert (M : 0 < h * (e - h * (A + B))) by (apply Qmult_lt_0_compat; [exact H0|]; nra). unfold e in M at 1. nra.
Qed.
Print Assumptions slope_unique.

(** EvaluateUnivariate(x, k) is the k-th derivative at x. *)
Theorem evaluate_univariate : forall p k, good p -> p_univ p = true ->
  exists g, derives k (curve p) g /\ forall x, exists y, EvaluateUnivariate p x k = Ok y /\ y == g x.
Proof.
  intros p k (_ & _ & O) U. destruct (O U) as (v & Hv & F). exists (dsum k (p_monos p)). split.
  - eapply derives_ext; [| |apply (dsum_derives k (p_monos p) 0)].
    + intros x. unfold curve, value. symmetry. apply (dsum_curve v); auto.
    + intros x. rewrite Nat.add_0_r. reflexivity.
  - intros x. unfold EvaluateUnivariate. rewrite U. cbn [throw_unless]. eexists. split; [reflexivity|]. rewrite eval_fold. ring.
Qed.
Print Assumptions evaluate_univariate.
Example evaluate_univariate_example : EvaluateUnivariate (poly_coefs [5; 0; 3; 2]) 2 1 = Ok 36 /\ EvaluateUnivariate (poly_coefs [5; 0; 3; 2]) 2 0 = Ok 33 /\ EvaluateUnivariate (poly_coefs [5; 0; 3; 2]) 2 4 = Ok 0.
Proof. vm_compute. auto. Qed.

(** Derivative(k) is a polynomial whose curve is the k-th derivative. *)
Theorem derivative_means : forall p k, good p -> p_univ p = true ->
  exists q, Derivative p k = Ok q /\ good q /\ p_univ q = true /\ derives k (curve p) (curve q).
Proof.
  intros p k G U. unfold Derivative. rewrite U. cbn [throw_unless]. destruct (Nat.eqb_spec k 0) as [->|Nk].
  - exists p. split; [reflexivity|]. split; [exact G|]. split; [exact U|]. constructor. reflexivity.
  - assert (Hk : (0 < k)%nat) by lia. destruct G as (P & C & O). destruct (O U) as (v & Hv & F). eexists. split; [reflexivity|].
    pose proof (derive_only v k _ Hk F) as FO. split; [|split; [reflexivity|]].
    + split; [|split]; cbn [p_monos].
      * eapply Forall_impl; [|exact FO]. intros m; apply only_proper; auto.
      * unfold combined in *. cbn [p_monos]. apply (combined_powers v); [exact FO|]. apply (derive_powers v); auto. apply (combined_powers v); auto.
      * intros _. exists v. auto.
    + eapply derives_ext; [| |apply (dsum_derives k (p_monos p) 0)].
      * intros x. unfold curve, value. symmetry. apply (dsum_curve v); auto.
      * intros x. rewrite Nat.add_0_r. unfold curve, value. cbn [p_monos]. symmetry. apply (derive_sum v); auto.
Qed.
Print Assumptions derivative_means.
Example derivative_example : Derivative (poly_coefs [5; 7; 3; 2]) 2 = Ok (Poly [Mono 6 []; Mono 12 [Term 48 1]] true).
Proof. vm_compute. reflexivity. Qed.

(** Integral is a polynomial whose derivative is the given one and which starts at the constant... *)
Theorem integral_means : forall p c, good p -> p_univ p = true -> (exists v, occurs v p) ->
  exists q, Integral p c = Ok q /\ good q /\ p_univ q = true /\ curve q 0 == c /\ forall x, slope (curve q) x (curve p x).
Proof.
  intros p c (P & C & O) U (w & (m & t & I & J & _)). destruct (O U) as (v & Hv & F).
  assert (X : existsb (fun m => negb (is_constant m)) (p_monos p) = true).
  { apply existsb_exists. exists m. split; [auto|]. unfold is_constant. destruct (m_terms m); [destruct J|reflexivity]. }
  unfold Integral. rewrite U. cbn [throw_unless]. rewrite (integrate_only v Hv (p_monos p) []) by auto. cbn [omap app].
  eexists. split; [reflexivity|].
  assert (FO : Forall (only v) (map (int_mono v) (p_monos p) ++ [Mono c []])).
  { apply Forall_app; split; [|constructor; [left; reflexivity|constructor]]. rewrite Forall_map. eapply Forall_impl; [|exact F]. intros a Ha. apply (int_mono_only v a Ha). }
  split; [|split; [reflexivity|split]].
  - split; [|split]; cbn [p_monos].
    + eapply Forall_impl; [|exact FO]. intros a; apply only_proper; auto.
    + unfold combined in *. cbn [p_monos]. apply (combined_powers v); [exact FO|]. rewrite map_app. cbn [map pw m_terms].
      apply (combined_powers v) in C; [|exact F].
      assert (E : map pw (map (int_mono v) (p_monos p)) = map S (map pw (p_monos p))).
      { rewrite !map_map. apply map_ext_in. intros a Ha. rewrite Forall_forall in F. apply (int_mono_only v a), F, Ha. }
      rewrite E. apply Permutation_NoDup with (0%nat :: map S (map pw (p_monos p))); [apply Permutation_cons_append|].
      constructor; [intros K; apply in_map_iff in K; destruct K as (? & ? & _); discriminate|]. apply FinFun.Injective_map_NoDup; [intros a b; congruence|exact C].
    + intros _. exists v. auto.
  - unfold curve, value. cbn [p_monos]. rewrite sumval_app, (int_mono_zero v) by exact F. cbn [sumval]. unfold mval. cbn [m_coef m_terms tval]. ring.
  - intros x. eapply slope_ext; [| |apply slope_add; [apply (int_mono_sum v (p_monos p) x F)|apply (slope_const c)]].
    + intros y. unfold curve, value. cbn [p_monos]. rewrite sumval_app. cbn [sumval]. unfold mval. cbn [m_coef m_terms tval]. ring.
    + unfold curve, value. ring.
Qed.
Print Assumptions integral_means.
Example integral_example : Integral (poly_coefs [5; 6]) 9 = Ok (Poly [Mono 5 [Term 48 1]; Mono (6 / 2) [Term 48 2]; Mono 9 []] true).
Proof. vm_compute. reflexivity. Qed.
(** ... and throws for a constant. *)
Theorem integral_of_constant_throws : forall p c, good p -> p_univ p = true -> (forall v, ~ occurs v p) -> p_monos p <> [] -> Integral p c = Throw.
Proof.
  intros p c (P & C & O) U NO NE. unfold Integral. rewrite U. cbn [throw_unless]. destruct (p_monos p) as [|m r] eqn:E; [congruence|].
  assert (X : forall a, In a (m :: r) -> is_constant a = true).
  { intros a Ia. unfold is_constant. destruct (m_terms a) as [|t ts] eqn:T; [reflexivity|]. exfalso. apply (NO (t_var t)). exists a, t. rewrite E, T. simpl. auto. }
  rewrite integrate_constant; [reflexivity|apply X; left; auto|].
  apply Bool.not_true_iff_false. intros H. apply existsb_exists in H. destruct H as (a & Ia & Na). rewrite (X a Ia) in Na. discriminate.
Qed.
Print Assumptions integral_of_constant_throws.
Example integral_throws_example : Integral (poly_const 3) 1 = Throw.
Proof. reflexivity. Qed.

(** is_univariate_ never comes back: x + y - y is x, and cannot be evaluated as univariate. *)
Theorem univariate_flag_refuted : exists p, good p /\ (forall v, occurs v p -> v = 56%N) /\ (forall rho, value rho p == rho 56%N) /\
  (forall x k, EvaluateUnivariate p x k = Throw) /\ (forall k, Derivative p k = Throw) /\ GetCoefficients p = Throw.
Proof.
  exists (run (ESub (EAdd (EVar 1 56) (EVar 1 58)) (EVar 1 58))).
  destruct (expressions_mean_arithmetic (ESub (EAdd (EVar 1 56) (EVar 1 58)) (EVar 1 58))) as (G & V & _); [cbn; lia|].
  assert (E : run (ESub (EAdd (EVar 1 56) (EVar 1 58)) (EVar 1 58)) = Poly [Mono 1 [Term 56 1]] false) by (vm_compute; reflexivity).
  split; [exact G|]. split.
  - rewrite E. intros v (m & t & [<-|[]] & [<-|[]] & <-). reflexivity.
  - split; [intros rho; rewrite (V rho); cbn [denote]; ring|]. rewrite E. repeat split.
Qed.
Print Assumptions univariate_flag_refuted.

(** GetCoefficients lists the coefficients c0, c1, ... of the powers. *)
Theorem coefficients_listed : forall p, good p -> p_univ p = true ->
  exists l, GetCoefficients p = Ok l /\ List.length l = (GetDegree p + 1)%nat /\ forall x, horner l x == curve p x.
Proof.
  intros p (P & C & O) U. destruct (O U) as (v & Hv & F). unfold GetCoefficients. rewrite U. cbn [throw_unless].
  destruct (fill_horner v (p_monos p) F) with (l := repeat 0 (GetDegree p + 1)) as (l & E & L & H).
  - apply (combined_powers v); auto.
  - rewrite Forall_forall. intros m I. rewrite repeat_length. split.
    + destruct (degree_fold (p_monos p) 0) as (_ & D & _). specialize (D m I). rewrite Forall_forall in F. rewrite (only_degree v m (F m I)) in D. unfold GetDegree. lia.
    + generalize (GetDegree p + 1)%nat as n. generalize (pw m) as k. clear. induction k as [|k IH]; intros [|n]; simpl; try reflexivity. apply IH.
  - exists l. rewrite repeat_length in L. split; [exact E|]. split; [exact L|]. intros x. rewrite H, horner_repeat. unfold curve, value. ring.
Qed.
Print Assumptions coefficients_listed.
Example coefficients_example : GetCoefficients (padd (poly_terms 4 [Term 48 3]) (poly_const 2)) = Ok [2; 0; 0; 4].
Proof. vm_compute. reflexivity. Qed.

(** A polynomial made of coefficients has them. *)
Theorem from_coefficients : forall l, good (poly_coefs l) /\ p_univ (poly_coefs l) = true /\ forall x, curve (poly_coefs l) x == horner l x.
Proof.
  intros l.
  assert (F : forall l i, Forall (only var_t) (coef_monos var_t i l)).
  { clear. induction l as [|c r IH]; intros i; cbn [coef_monos]; constructor; [|apply IH]. destruct i; [left; reflexivity|right; exists (S i); split; [lia|reflexivity]]. }
  assert (N : forall l i, map pw (coef_monos var_t i l) = seq i (List.length l)).
  { clear. induction l as [|c r IH]; intros i; cbn [coef_monos map List.length seq]; [reflexivity|]. rewrite IH. f_equal. destruct i; reflexivity. }
  split; [|split; [reflexivity|]].
  - split; [|split]; cbn [p_monos poly_coefs].
    + eapply Forall_impl; [|apply F]. intros m; apply only_proper. reflexivity.
    + unfold combined, poly_coefs. cbn [p_monos]. apply (combined_powers var_t); [apply F|]. rewrite N. apply seq_NoDup.
    + intros _. exists var_t. split; [reflexivity|apply F].
  - intros x. unfold curve, value. cbn [p_monos poly_coefs].
    assert (H : forall l i, sumval (fun _ => x) (coef_monos var_t i l) == power x i * horner l x).
    { clear - F. induction l as [|c r IH]; intros i; cbn [coef_monos sumval horner]; [ring|]. rewrite IH. unfold mval. cbn [m_coef m_terms]. destruct i; cbn [tval t_var t_pow power]; ring. }
    rewrite H. cbn [power]. ring.
Qed.
Print Assumptions from_coefficients.

(** The root of a polynomial of degree one is one. *)
Theorem roots_vanish : forall p l, good p -> p_univ p = true -> Forall (fun m => ~ m_coef m == 0) (p_monos p) -> Roots p = Ok l ->
  forall r, In r l -> curve p r == 0.
Proof.
  intros p l G U NZ R r I. destruct (coefficients_listed p G U) as (cs & E & L & H). unfold Roots in R. rewrite U, E in R. cbn [throw_unless obind] in R.
  destruct cs as [|c0 [|c1 [|c2 cs]]]; try discriminate; injection R as <-; [destruct I|]. destruct I as [<-|[]].
  rewrite <- H. cbn [horner]. cbn [List.length] in L.
  assert (N1 : ~ c1 == 0).
  { intros Z. destruct G as (P & C & O). destruct (O U) as (v & Hv & F).
    destruct (degree_fold (p_monos p) 0) as (_ & _ & D). fold (GetDegree p) in D. destruct D as [D|(m & Im & D)]; [lia|].
    unfold GetCoefficients in E. rewrite U in E. cbn [throw_unless] in E.
    rewrite Forall_forall in F, NZ. pose proof (F m Im) as Om. rewrite (only_degree v m Om) in D.
    assert (K : forall x, curve p x == c0).
    { intros x. rewrite <- H. cbn [horner]. rewrite Z. ring. }
    (* every monomial has power 0 or 1; the one of power 1 is unique *)
    assert (S1 : forall ms, (forall a, In a ms -> only v a) -> NoDup (map pw ms) -> (forall a, In a ms -> (pw a <= 1)%nat) -> forall a, In a ms -> pw a = 1%nat ->
      sumval (fun _ => 1) ms - sumval (fun _ => 0) ms == m_coef a).
    { clear. induction ms as [|b ms IH]; intros On Nd Le a Ia Pa; [destruct Ia|]. cbn [map] in Nd. inversion Nd as [|? ? Ni Nd']; subst. cbn [sumval].
      assert (Ob : only v b) by (apply On; left; auto). unfold mval. rewrite (only_tval v b 1 Ob), (only_tval v b 0 Ob).
      destruct Ia as [->|Ia].
      - rewrite Pa. assert (Z0 : forall c, In c ms -> pw c = O).
        { intros c Ic. specialize (Le c (or_intror Ic)). destruct (Nat.eq_dec (pw c) 1) as [E1|]; [|lia]. exfalso. apply Ni. rewrite Pa, <- E1. apply in_map; auto. }
        assert (Q : sumval (fun _ => 1) ms == sumval (fun _ => 0) ms).
        { clear - Z0 On. induction ms as [|c ms IH]; cbn [sumval]; [reflexivity|]. assert (Oc : only v c) by (apply On; right; left; auto).
          rewrite IH; [|intros z Hz; apply On; destruct Hz as [->|Hz]; [left; auto|right; right; auto]|intros z Hz; apply Z0; right; auto].
          unfold mval. rewrite (only_tval v c 1 Oc), (only_tval v c 0 Oc), (Z0 c (or_introl eq_refl)). cbn [power]. reflexivity. }
        rewrite Q. cbn [power]. ring.
      - specialize (IH (fun c Hc => On c (or_intror Hc)) Nd' (fun c Hc => Le c (or_intror Hc)) a Ia Pa).
        assert (Pb : pw b = O). { specialize (Le b (or_introl eq_refl)). destruct (Nat.eq_dec (pw b) 1) as [E1|]; [|lia]. exfalso. apply Ni. rewrite E1, <- Pa. apply in_map; auto. }
        rewrite Pb. cbn [power]. lra. }
    apply (NZ m Im). rewrite <- (S1 (p_monos p)) with (a := m).
    - pose proof (K 1) as K1. pose proof (K 0) as K0. unfold curve, value in K1, K0. rewrite K1, K0. ring.
    - exact F.
    - apply (combined_powers v); [rewrite Forall_forall; exact F|exact C].
    - intros a Ia. destruct (degree_fold (p_monos p) 0) as (_ & B & _). specialize (B a Ia). fold (GetDegree p) in B. rewrite (only_degree v a (F a Ia)) in B. lia.
    - exact Im.
    - lia. }
  field. exact N1.
Qed.
Print Assumptions roots_vanish.
Example roots_example : Roots (poly_coefs [6; -4]) = Ok [- 6 / -4] /\ curve (poly_coefs [6; -4]) (- 6 / -4) == 0.
Proof. split; vm_compute; reflexivity. Qed.

(** ** C72: names of variables *)

(** A documented name and a number give an id, from which they are printed back. *)
Theorem names_round_trip : forall s m, good_name s -> (1 <= m <= 2325)%N ->
  exists id, VariableNameToId s m = Ok id /\ (0 < id < 2 ^ 32)%N /\ IdToVariableName id = append s (to_string m).
Proof.
  intros s m G Hm. destruct (name_id s m G Hm) as [E P]. eexists. split; [exact E|]. destruct (part_cases s G) as (d0 & d1 & d2 & d3 & Ep & B0 & _).
  split; [change (2 ^ 32)%N with 4294967296%N; lia|]. apply id_name; [auto|lia].
Qed.
Print Assumptions names_round_trip.
Example names_example : VariableNameToId "dx" 4 = Ok 5541678%N /\ IdToVariableName 5541678 = "dx4"%string /\ VariableNameToId "t" 1 = Ok var_t.
Proof. vm_compute. auto. Qed.

(** Different names or numbers have different ids. *)
Theorem names_distinct : forall s m s' m' id, good_name s -> good_name s' -> (1 <= m <= 2325)%N -> (1 <= m' <= 2325)%N ->
  VariableNameToId s m = Ok id -> VariableNameToId s' m' = Ok id -> s = s' /\ m = m'.
Proof.
  intros s m s' m' id G G' Hm Hm' E E'. destruct (name_id s m G Hm) as [F P]. destruct (name_id s' m' G' Hm') as [F' P'].
  assert (X : (2 * (part s + 923521 * (m - 1)) = 2 * (part s' + 923521 * (m' - 1)))%N) by congruence. clear E E' F F'.
  assert (Em : m = m') by lia. subst m'. split; [|reflexivity]. apply part_inj; auto. lia.
Qed.
Print Assumptions names_distinct.

(** Empty names, names with other characters (NUL apart, see below), numbers out of range and names of five or
    six letters are rejected. *)
Theorem names_rejected : forall s m,
  (is_ok (VariableNameToId s m) = true -> (1 <= m <= 2325)%N /\ s <> EmptyString /\ Forall (fun c => name_char c \/ c = Ascii.zero) (list_ascii_of_string s)) /\
  ((5 <= String.length s <= 6)%nat -> Forall name_char (list_ascii_of_string s) -> VariableNameToId s m = Throw).
Proof.
  intros s m. split.
  - unfold VariableNameToId. destruct (IsValidVariableName s) eqn:V; [|discriminate]. cbn [throw_unless].
    destruct (N.leb _ kMaxNamePart); [|discriminate]. cbn [throw_unless].
    change (N.div (N.div (two32 - 1) 2) kMaxNamePart) with 2325%N.
    destruct (N.leb_spec m 2325); [|discriminate]. cbn [throw_unless]. destruct (N.leb_spec 1 m); [|discriminate]. intros _.
    split; [lia|]. unfold IsValidVariableName in V. apply andb_true_iff in V. destruct V as [V1 V2].
    split; [intros ->; discriminate|]. apply Forall_forall. rewrite forallb_forall in V2. intros c I. specialize (V2 c I). apply valid_char. destruct (strchr kNameChars c); congruence.
  - intros L F. unfold VariableNameToId. destruct (IsValidVariableName s); [|reflexivity]. cbn [throw_unless].
    assert (X : (kMaxNamePart < name_loop (rev (list_ascii_of_string s)) 1 0)%N).
    { destruct s as [|c1 [|c2 [|c3 [|c4 [|c5 [|c6 [|c7 s]]]]]]]; cbn [String.length] in L; try lia; cbn [list_ascii_of_string] in *;
        repeat match goal with H : Forall name_char (_ :: _) |- _ => inversion H; clear H; subst end;
        repeat match goal with H : name_char ?c |- _ => generalize (proj1 (name_char_digit c H)); revert H end; intros;
        (rewrite name_loop_num; [|cbn [rev app]; repeat (apply Forall_cons; [assumption|]); apply Forall_nil|cbn [rev app List.length]; vm_compute; discriminate|cbn [rev app map num]; unfold two32; lia]);
        cbn [rev app map num]; unfold kMaxNamePart; lia. }
    destruct (N.leb_spec (name_loop (rev (list_ascii_of_string s)) 1 0) kMaxNamePart); [lia|reflexivity].
Qed.
Print Assumptions names_rejected.
Example names_rejected_ex : VariableNameToId "x" 0 = Throw /\ VariableNameToId "x" 2326 = Throw /\ VariableNameToId "" 1 = Throw /\
  VariableNameToId "aaaaa" 1 = Throw /\ VariableNameToId "X" 1 = Throw /\ is_ok (VariableNameToId "x" 2325) = true.
Proof. vm_compute. repeat split. Qed.

(** Names longer than documented are let through when their number overflows, and meet others. *)
Theorem long_names_refuted : exists s s' id, s <> s' /\ IsValidVariableName s = true /\ good_name s' /\
  VariableNameToId s 1 = Ok id /\ VariableNameToId s' 1 = Ok id.
Proof.
  exists "og#mv.i"%string, "x"%string, 56%N. split; [discriminate|]. split; [reflexivity|]. split; [|split; vm_compute; reflexivity].
  split; [simpl; lia|]. constructor; [|constructor]. left. simpl. lia.
Qed.
Print Assumptions long_names_refuted.
(** A NUL character is taken for a letter. *)
Theorem nul_name_refuted : exists s, IsValidVariableName s = true /\ ~ (forall c, In c (list_ascii_of_string s) -> name_char c) /\ is_ok (VariableNameToId s 1) = true.
Proof.
  exists (String Ascii.zero EmptyString). split; [reflexivity|]. split; [|vm_compute; reflexivity].
  intros H. destruct (H Ascii.zero (or_introl eq_refl)) as [X|[X|[X|[X|X]]]]; try discriminate. simpl in X. lia.
Qed.
Print Assumptions nul_name_refuted.
