(** Piecewise polynomial trajectories: arithmetic, comparison, blocks (C75). *)
From Coq Require Import List QArith Qabs ZArith NArith Bool Arith Lia Lqa.
From Verif Require Import Base Poly_Model Poly_Spec Poly_Proofs Poly_Proofs2 Poly_Proofs3 Poly_Proofs4 Poly_Props Traj_Model Traj_Spec Traj_Proofs Traj_Proofs2 Traj_Proofs3 Traj_Proofs4 Traj_Proofs5 Traj_Proofs6 Traj_Props.
Import ListNotations.

Lemma same_equal p q : same_times p q -> SegmentTimesEqual p q kEpsilonTime = true.
Proof. intros [L H]. pose proof eps_pos. unfold SegmentTimesEqual. apply times_equal_refl; [lra|lia|]. intros i Hi. symmetry. apply H; auto. Qed.
Lemma in_var_goods v q : (0 < v)%N -> in_var v q -> Forall proper (p_monos q).
Proof. intros Hv [A _]. eapply Forall_impl; [|exact A]. intros ? O. eapply only_proper; eauto. Qed.

Lemma entrywise_ok v op g p q R C : (0 < v)%N -> (forall a a' b b', a == a' -> b == b' -> g a b == g a' b') ->
  (forall a b, in_var v a -> in_var v b -> good (op a b) /\ in_var v (op a b) /\ forall x, curve (op a b) x == g (curve a x) (curve b x)) ->
  sound p R C -> sound q R C -> in_variable v p R C -> in_variable v q R C -> same_times p q ->
  exists l, zipM (entrywise op) (polys p) (polys q) = Ok l /\ sound (Traj (breaks p) l) R C /\ in_variable v (Traj (breaks p) l) R C /\
  forall t, exists M A B, tvalue (Traj (breaks p) l) t = Ok M /\ tvalue p t = Ok A /\ tvalue q t = Ok B /\ is_matrix M R C (fun r c => g (m_at A r c) (m_at B r c)).
Proof.
  intros Hv Pg Hop So Sq Vp Vq [L Hb]. pose proof (len_breaks p R C So) as LB. pose proof (len_breaks q R C Sq) as LQ.
  destruct (zip_ok p q R C R C R C (entrywise op) So Sq L) as (l & El & Ss & Ll & Hl).
  { intros i m m' E E'. destruct (sound_seg p R C i m So E) as (Mr & Mc & _). destruct (sound_seg q R C i m' Sq E') as (Mr' & Mc' & _). unfold entrywise, same_dims. rewrite Mr, Mc, Mr', Mc', !Nat.eqb_refl. cbn [andb].
    eexists. split; [reflexivity|]. split; [reflexivity|]. split; [reflexivity|]. intros r c Hr Hc. cbn [m_at].
    destruct (Hop (m_at m r c) (m_at m' r c)) as (G & [_ U] & _); eauto using in_var_entry. }
  assert (Ent : forall i r c, (i < List.length (polys p))%nat -> (r < R)%nat -> (c < C)%nat -> entry (Traj (breaks p) l) i r c = op (entry p i r c) (entry q i r c) /\ in_var v (entry p i r c) /\ in_var v (entry q i r c)).
  { intros i r c Hi Hr Hc. destruct (nth_error_entry p i r c Hi) as (m & E & Em). destruct (nth_error_entry q i r c ltac:(lia)) as (m' & E' & Em'). destruct (Hl i m m' E E') as (z & Ez & Fz).
    unfold entrywise in Fz. destruct (same_dims m m'); [|discriminate]. injection Fz as <-. rewrite (entry_nth (Traj (breaks p) l) i _ r c Ez), Em, Em'. cbn [m_at]. split; [auto|]. split; eauto using in_var_entry. }
  exists l. split; [auto|]. split; [auto|]. split.
  - intros i r c Hi Hr Hc. cbn [polys] in Hi. destruct (Ent i r c ltac:(lia) Hr Hc) as (-> & A & B). apply (Hop _ _ A B).
  - intros t. destruct (value_total _ R C t Ss) as (M & V & MR & MC). destruct (value_total p R C t So) as (A & VA & _). destruct (value_total q R C t Sq) as (B & VB & _). exists M, A, B. split; [auto|]. split; [auto|]. split; [auto|].
    split; [auto|]. split; [auto|]. intros r c Hr Hc. destruct (same_breaks_value p R C q R C t So Sq L Hb) as (i & x & Cl & Sp & Hi & WA & WB). destruct (value_works _ R C t M Ss V) as (_ & _ & W).
    rewrite (W i x Cl Sp r c Hr Hc). destruct (Ent i r c Hi Hr Hc) as (-> & IA & IB). destruct (Hop _ _ IA IB) as (_ & _ & X). rewrite X. apply Pg; symmetry; [apply WA; auto|apply WB; auto].
Qed.

(** + and - are pointwise, for trajectories over the same times in the same variable. *)
Theorem add_values : forall v p q R C, (0 < v)%N -> sound p R C -> sound q R C -> in_variable v p R C -> in_variable v q R C -> same_times p q ->
  exists s, tadd p q = Ok s /\ sound s R C /\ in_variable v s R C /\ breaks s = breaks p /\
  forall t, exists M A B, tvalue s t = Ok M /\ tvalue p t = Ok A /\ tvalue q t = Ok B /\ is_matrix M R C (fun r c => m_at A r c + m_at B r c).
Proof.
  intros v p q R C Hv So Sq Vp Vq T. destruct (entrywise_ok v padd Qplus p q R C) as (l & E & Ss & Sv & H); auto.
  - intros a a' b b' -> ->. reflexivity.
  - intros a b A B. destruct (good_padd_var v a b Hv A B) as (G & U & X). split; [auto|]. split; [apply in_var_padd; auto|auto].
  - exists (Traj (breaks p) l). split; [unfold tadd; rewrite (same_equal p q T), E; reflexivity|]. auto.
Qed.
Print Assumptions add_values.
Theorem sub_values : forall v p q R C, (0 < v)%N -> sound p R C -> sound q R C -> in_variable v p R C -> in_variable v q R C -> same_times p q ->
  exists s, tsub p q = Ok s /\ sound s R C /\ in_variable v s R C /\ breaks s = breaks p /\
  forall t, exists M A B, tvalue s t = Ok M /\ tvalue p t = Ok A /\ tvalue q t = Ok B /\ is_matrix M R C (fun r c => m_at A r c - m_at B r c).
Proof.
  intros v p q R C Hv So Sq Vp Vq T. destruct (entrywise_ok v psub Qminus p q R C) as (l & E & Ss & Sv & H); auto.
  - intros a a' b b' -> ->. reflexivity.
  - intros a b A B. destruct (good_psub_var v a b Hv A B) as (G & U & X). split; [auto|]. split; [apply in_var_psub; auto|auto].
  - exists (Traj (breaks p) l). split; [unfold tsub; rewrite (same_equal p q T), E; reflexivity|]. auto.
Qed.
Print Assumptions sub_values.
(** * is the product of matrices. *)
Theorem mul_values : forall v p q R K C, (0 < v)%N -> sound p R K -> sound q K C -> in_variable v p R K -> in_variable v q K C -> same_times p q ->
  exists s, tmul p q = Ok s /\ sound s R C /\ in_variable v s R C /\ breaks s = breaks p /\
  forall t, exists M A B, tvalue s t = Ok M /\ tvalue p t = Ok A /\ tvalue q t = Ok B /\ is_matrix M R C (fun r c => total (map (fun k => m_at A r k * m_at B k c) (seq 0 K))).
Proof.
  intros v p q R K C Hv So Sq Vp Vq T. destruct T as [L Hb]. pose proof (len_breaks p R K So) as LB. pose proof (len_breaks q K C Sq) as LQ.
  assert (Row : forall i m m' r c, nth_error (polys p) i = Some m -> nth_error (polys q) i = Some m' -> (r < R)%nat -> (c < C)%nat ->
    let l := map (fun k => pmul (m_at m r k) (m_at m' k c)) (seq 0 K) in Forall (in_var v) l /\ Forall good l).
  { intros i m m' r c E E' Hr Hc l. split; apply Forall_map, Forall_forall; intros k Hk; apply in_seq in Hk; [apply in_var_pmul|apply (good_pmul_var v)]; auto; first [apply (in_var_entry v p R K i m); auto; lia | apply (in_var_entry v q K C i m'); auto; lia]. }
  destruct (zip_ok p q R K K C R C mat_mul So Sq L) as (l & El & Ss & Ll & Hl).
  { intros i m m' E E'. destruct (sound_seg p R K i m So E) as (Mr & Mc & _). destruct (sound_seg q K C i m' Sq E') as (Mr' & Mc' & _). unfold mat_mul. rewrite Mr, Mc, Mr', Mc', !Nat.eqb_refl.
    eexists. split; [reflexivity|]. split; [reflexivity|]. split; [reflexivity|]. intros r c Hr Hc. cbn [m_at]. destruct (Row i m m' r c E E' Hr Hc) as (F & G). destruct (psum_ok v _ Hv F G) as (X & [_ Y] & _). auto. }
  assert (Ent : forall i m m' r c, nth_error (polys p) i = Some m -> nth_error (polys q) i = Some m' -> entry (Traj (breaks p) l) i r c = psum (map (fun k => pmul (m_at m r k) (m_at m' k c)) (seq 0 K))).
  { intros i m m' r c E E'. destruct (Hl i m m' E E') as (z & Ez & Fz). unfold mat_mul in Fz. destruct (Nat.eqb _ _); [|discriminate]. injection Fz as <-. rewrite (entry_nth (Traj (breaks p) l) i _ r c Ez). cbn [m_at].
    destruct (sound_seg p R K i m So E) as (_ & -> & _). reflexivity. }
  exists (Traj (breaks p) l). split; [unfold tmul; rewrite (same_equal p q (conj L Hb)), El; reflexivity|]. split; [auto|]. split; [|split; [reflexivity|]].
  - intros i r c Hi Hr Hc. cbn [polys] in Hi. destruct (nth_error_entry p i r 0%nat ltac:(lia)) as (m & E & _). destruct (nth_error_entry q i 0%nat c ltac:(lia)) as (m' & E' & _). rewrite (Ent i m m' r c E E').
    destruct (Row i m m' r c E E' Hr Hc) as (F & G). destruct (psum_ok v _ Hv F G) as (_ & [X _] & _). exact X.
  - intros t. destruct (value_total _ R C t Ss) as (M & V & MR & MC). destruct (value_total p R K t So) as (A & VA & _). destruct (value_total q K C t Sq) as (B & VB & _). exists M, A, B. split; [auto|]. split; [auto|]. split; [auto|].
    split; [auto|]. split; [auto|]. intros r c Hr Hc. destruct (same_breaks_value p R K q K C t So Sq L Hb) as (i & x & Cl & Sp & Hi & WA & WB). destruct (value_works _ R C t M Ss V) as (_ & _ & W).
    rewrite (W i x Cl Sp r c Hr Hc). destruct (nth_error_entry p i r 0%nat Hi) as (m & E & _). destruct (nth_error_entry q i 0%nat c ltac:(lia)) as (m' & E' & _). rewrite (Ent i m m' r c E E').
    destruct (Row i m m' r c E E' Hr Hc) as (F & G). destruct (psum_ok v _ Hv F G) as (_ & _ & X). rewrite X. cbn [breaks]. rewrite map_map.
    assert (Hk : forall k, In k (seq 0 K) -> curve (pmul (m_at m r k) (m_at m' k c)) (x - nth i (breaks p) 0) == m_at A r k * m_at B k c).
    { intros k Hk. apply in_seq in Hk. destruct (good_pmul_var v (m_at m r k) (m_at m' k c) Hv) as (_ & _ & Y); [apply (in_var_entry v p R K i m); auto; lia|apply (in_var_entry v q K C i m'); auto; lia|]. rewrite Y.
      rewrite (WA A VA r k Hr ltac:(lia)), (WB B VB k c ltac:(lia) Hc), (entry_nth p i m r k E), (entry_nth q i m' k c E'). reflexivity. }
    clear - Hk. induction (seq 0 K) as [|k l' IH]; cbn [map total]; [reflexivity|]. rewrite (Hk k (or_introl eq_refl)), IH by (intros; apply Hk; right; auto). reflexivity.
Qed.
Print Assumptions mul_values.
(** piecewise_polynomial.h 584-592 promises the coefficient-wise product. *)
Theorem coefficient_wise_product_refuted : exists p s M A r c, sound p 2 2 /\ in_variable var_t p 2 2 /\ tmul p p = Ok s /\ tvalue s 0 = Ok M /\ tvalue p 0 = Ok A /\ (r < 2)%nat /\ (c < 2)%nat /\ ~ m_at M r c == m_at A r c * m_at A r c.
Proof.
  set (p := Traj [0; 1] [Mat 2 2 (fun r c => poly_coefs [if Nat.eqb r c then 0 else 1])]).
  assert (So : sound p 2 2).
  { apply sound_build; [reflexivity|discriminate|intros [|i] Hi; cbn in *; try lia; reflexivity|]. intros [|i] m E; cbn in E; [|destruct i; discriminate]. injection E as <-. split; [reflexivity|]. split; [reflexivity|].
    intros r c _ _. cbn [m_at]. destruct (from_coefficients [if Nat.eqb r c then 0 else 1]) as (G & U & _). auto. }
  assert (Vp : in_variable var_t p 2 2).
  { intros [|i] r c Hi _ _; cbn [p polys List.length] in Hi; [|lia]. unfold entry, p. cbn [polys nth m_at]. destruct (Nat.eqb r c); vm_compute; repeat first [apply Forall_nil | apply Forall_cons; [left; reflexivity|]]. }
  destruct (mul_values var_t p p 2 2 2 eq_refl So So Vp Vp) as (s & E & Ss & _ & _ & H); [split; [reflexivity|intros; reflexivity]|]. destruct (H 0) as (M & A & B & VM & VA & VB & MR & MC & HM).
  exists p, s, M, A, 0%nat, 0%nat. split; [auto|]. split; [auto|]. split; [auto|]. split; [auto|]. split; [auto|]. split; [lia|]. split; [lia|]. rewrite HM by lia. assert (B = A) by congruence. subst B.
  assert (X : omap (fun M => (m_at M 0 0, m_at M 0 1, m_at M 1 0))%nat (tvalue p 0) = Ok (0, 1, 1)) by (vm_compute; reflexivity). rewrite VA in X. cbn [omap] in X. injection X as X1 X2 X3. cbn [seq map total]. rewrite X1, X2, X3. vm_compute. discriminate.
Qed.
Print Assumptions coefficient_wise_product_refuted.
(** Times that differ by more than kEpsilonTime are refused. *)
Theorem operators_reject : forall p q i, List.length (breaks p) <> List.length (breaks q) \/ ((i < List.length (breaks p))%nat /\ kEpsilonTime < Qabs (nth i (breaks p) 0 - nth i (breaks q) 0)) ->
  tadd p q = Throw /\ tsub p q = Throw /\ tmul p q = Throw.
Proof.
  intros p q i H. assert (X : SegmentTimesEqual p q kEpsilonTime = false).
  { destruct (SegmentTimesEqual p q kEpsilonTime) eqn:E; [|reflexivity]. unfold SegmentTimesEqual in E. apply times_equal_inv in E. destruct E as [L E]. destruct H as [H|[Hi H]]; [congruence|]. specialize (E i Hi). lra. }
  unfold tadd, tsub, tmul. rewrite X. auto.
Qed.
Print Assumptions operators_reject.
(** Sizes that do not fit are not detected: Eigen's assertions are not armed in release builds. *)
Theorem operator_sizes_refuted : exists p q, sound p 1 1 /\ sound q 2 1 /\ same_times p q /\ tadd p q = UB /\ tmul p q = UB.
Proof.
  exists bend, (Traj [0; 1; 3] (map (fun m => Mat 2 1 (fun _ _ => m_at m 0%nat 0%nat)) (polys bend))). split; [apply bend_sound|]. split.
  - apply sound_build; [reflexivity|discriminate|apply bend_sound|]. intros [|[|i]] m E; cbn in E; try (destruct i; discriminate); injection E as <-; (split; [reflexivity|]); (split; [reflexivity|]); intros r c _ _; cbn [m_at].
    + destruct (from_coefficients [1; 2; 1]) as (G & U & _). auto.
    + destruct (from_coefficients [4; -(1)]) as (G & U & _). auto.
  - split; [split; [reflexivity|intros; reflexivity]|]. split; vm_compute; reflexivity.
Qed.
Print Assumptions operator_sizes_refuted.
Example operators_example : omap (fun M => m_at M 0%nat 0%nat) (obind (tadd bend bend) (fun q => tvalue q 2)) = Ok 6 /\ omap (fun M => m_at M 0%nat 0%nat) (obind (tsub bend bend) (fun q => tvalue q 2)) = Ok 0 /\
  omap (fun M => m_at M 0%nat 0%nat) (obind (tmul bend bend) (fun q => tvalue q 2)) = Ok 9 /\ in_variable var_t bend 1 1.
Proof. split; [vm_compute; reflexivity|]. split; [vm_compute; reflexivity|]. split; [vm_compute; reflexivity|]. apply bend_variable. Qed.

(** Adding or subtracting a matrix of numbers. *)
Lemma offset_ok v op g p R C w : (0 < v)%N -> (forall a a' b b', a == a' -> b == b' -> g a b == g a' b') ->
  (forall a b, in_var v a -> in_var v b -> good (op a b) /\ in_var v (op a b) /\ forall x, curve (op a b) x == g (curve a x) (curve b x)) ->
  sound p R C -> in_variable v p R C -> m_rows w = R -> m_cols w = C ->
  exists l, mapM (offset_mat op w) (polys p) = Ok l /\ sound (Traj (breaks p) l) R C /\ in_variable v (Traj (breaks p) l) R C /\
  forall t, exists M A, tvalue (Traj (breaks p) l) t = Ok M /\ tvalue p t = Ok A /\ is_matrix M R C (fun r c => g (m_at A r c) (m_at w r c)).
Proof.
  intros Hv Pg Hop So Vp WR WC. pose proof (len_breaks p R C So) as LB. pose proof (polys_pos p R C So) as PP.
  assert (F : forall m, In m (polys p) -> offset_mat op w m = Ok (Mat R C (fun i j => op (m_at m i j) (poly_const (m_at w i j))))).
  { intros m Hm. apply In_nth_error in Hm. destruct Hm as [i E]. destruct (sound_seg p R C i m So E) as (Mr & Mc & _). unfold offset_mat, same_dims. rewrite Mr, Mc, WR, WC, !Nat.eqb_refl. reflexivity. }
  destruct (mapM_ok (offset_mat op w) (polys p)) as [l El]; [intros m Hm; rewrite F by auto; eauto|]. pose proof (mapM_inv _ _ _ El) as F2. pose proof (f2_len _ _ _ F2) as Ll.
  assert (Hl : forall i m, nth_error (polys p) i = Some m -> nth_error l i = Some (Mat R C (fun i j => op (m_at m i j) (poly_const (m_at w i j))))).
  { intros i m E. destruct (Forall2_nth _ _ _ F2 i m E) as (z & Ez & Fz). rewrite F in Fz by (eapply nth_error_In; eauto). rewrite Ez. congruence. }
  assert (Ent : forall i r c, (i < List.length (polys p))%nat -> (r < R)%nat -> (c < C)%nat -> entry (Traj (breaks p) l) i r c = op (entry p i r c) (poly_const (m_at w r c)) /\ in_var v (entry p i r c)).
  { intros i r c Hi Hr Hc. destruct (nth_error_entry p i r c Hi) as (m & E & Em). rewrite (entry_nth (Traj (breaks p) l) i _ r c (Hl i m E)), Em. cbn [m_at]. split; [auto|]. eapply in_var_entry; eauto. }
  assert (Ss : sound (Traj (breaks p) l) R C).
  { apply sound_build; [lia|intros ->; simpl in Ll; lia|apply So|]. intros i z Ez. assert (Li : (i < List.length l)%nat) by (apply nth_error_Some; congruence).
    destruct (nth_error (polys p) i) as [m|] eqn:E; [|apply nth_error_None in E; lia]. pose proof (Hl i m E) as X. rewrite X in Ez. injection Ez as <-. split; [reflexivity|]. split; [reflexivity|]. intros r c Hr Hc. cbn [m_at].
    destruct (Hop (m_at m r c) (poly_const (m_at w r c))) as (G & [_ U] & _); [eapply in_var_entry; eauto|apply in_var_const|]. auto. }
  exists l. split; [auto|]. split; [auto|]. split.
  - intros i r c Hi Hr Hc. cbn [polys] in Hi. destruct (Ent i r c ltac:(lia) Hr Hc) as (-> & A). apply (Hop _ _ A (in_var_const v _)).
  - intros t. destruct (value_total _ R C t Ss) as (M & V & MR & MC). destruct (value_total p R C t So) as (A & VA & _). exists M, A. split; [auto|]. split; [auto|].
    split; [auto|]. split; [auto|]. intros r c Hr Hc. destruct (spot p R C t So) as (i & x & Cl & Sp & Hi). destruct (value_works _ R C t M Ss V) as (_ & _ & W). destruct (value_works _ R C t A So VA) as (_ & _ & WA).
    rewrite (W i x Cl Sp r c Hr Hc). destruct (Ent i r c Hi Hr Hc) as (-> & IA). destruct (Hop _ _ IA (in_var_const v (m_at w r c))) as (_ & _ & X). rewrite X. apply Pg; [symmetry; apply WA; auto|apply curve_const].
Qed.
Theorem offset_values : forall v p R C w, (0 < v)%N -> sound p R C -> in_variable v p R C -> m_rows w = R -> m_cols w = C ->
  exists a s, tadd_mat p w = Ok a /\ tsub_mat p w = Ok s /\ sound a R C /\ sound s R C /\ breaks a = breaks p /\ breaks s = breaks p /\
  forall t, exists M A S, tvalue p t = Ok M /\ tvalue a t = Ok A /\ tvalue s t = Ok S /\ is_matrix A R C (fun r c => m_at M r c + m_at w r c) /\ is_matrix S R C (fun r c => m_at M r c - m_at w r c).
Proof.
  intros v p R C w Hv So Vp WR WC.
  destruct (offset_ok v padd Qplus p R C w) as (l & E & Ss & _ & H); auto; [intros a a' b b' -> ->; reflexivity|intros a b A B; destruct (good_padd_var v a b Hv A B) as (G & U & X); split; [auto|]; split; [apply in_var_padd; auto|auto]|].
  destruct (offset_ok v psub Qminus p R C w) as (l' & E' & Ss' & _ & H'); auto; [intros a a' b b' -> ->; reflexivity|intros a b A B; destruct (good_psub_var v a b Hv A B) as (G & U & X); split; [auto|]; split; [apply in_var_psub; auto|auto]|].
  exists (Traj (breaks p) l), (Traj (breaks p) l'). unfold tadd_mat, tsub_mat. rewrite E, E'. do 2 (split; [reflexivity|]). do 2 (split; [auto|]). do 2 (split; [reflexivity|]). intros t.
  destruct (H t) as (A & M & VA & VM & HA). destruct (H' t) as (S & M' & VS & VM' & HS). assert (M' = M) by congruence. subst. exists M, A, S. auto.
Qed.
Print Assumptions offset_values.
Example offset_example : omap (fun M => m_at M 0%nat 0%nat) (obind (tsub_mat bend (scalar_mat 5)) (fun q => tvalue q 2)) = Ok (-2).
Proof. vm_compute. reflexivity. Qed.

(** A trajectory over p's breaks whose entries are those of p through a map. *)
Lemma mapped p s R C R2 C2 t (h : nat -> nat -> nat * nat) (g : Q -> Q) : sound p R C -> sound s R2 C2 -> breaks s = breaks p -> (forall a a', a == a' -> g a == g a') ->
  (forall r c, (r < R2)%nat -> (c < C2)%nat -> (fst (h r c) < R)%nat /\ (snd (h r c) < C)%nat) ->
  (forall i r c x, (i < List.length (polys p))%nat -> (r < R2)%nat -> (c < C2)%nat -> curve (entry s i r c) x == g (curve (entry p i (fst (h r c)) (snd (h r c))) x)) ->
  exists M N, tvalue p t = Ok M /\ tvalue s t = Ok N /\ is_matrix N R2 C2 (fun r c => g (m_at M (fst (h r c)) (snd (h r c)))).
Proof.
  intros So Ss B Pg Hh He. destruct (value_total p R C t So) as (M & V & _). destruct (value_total s R2 C2 t Ss) as (N & VN & NR & NC). exists M, N. split; [auto|]. split; [auto|]. split; [auto|]. split; [auto|].
  intros r c Hr Hc. destruct (same_breaks_value p R C s R2 C2 t So Ss) as (i & x & Cl & Sp & Hi & WM & WN); [rewrite B; auto|rewrite B; intros; reflexivity|]. destruct (Hh r c Hr Hc) as [H1 H2].
  rewrite (WN N VN r c Hr Hc), He by auto. apply Pg. symmetry. apply WM; auto.
Qed.

(** Unary minus. *)
Theorem opposite_values : forall p R C, sound p R C -> sound (topp p) R C /\ breaks (topp p) = breaks p /\
  forall t, exists M N, tvalue p t = Ok M /\ tvalue (topp p) t = Ok N /\ is_matrix N R C (fun r c => - m_at M r c).
Proof.
  intros p R C So. pose proof (len_breaks p R C So) as LB. pose proof (polys_pos p R C So) as PP.
  assert (Ss : sound (topp p) R C).
  { unfold topp. apply sound_build; [rewrite map_length; auto|intros X; apply (f_equal (@List.length _)) in X; rewrite map_length in X; simpl in X; lia|apply So|]. intros i z E. rewrite nth_error_map in E. destruct (nth_error (polys p) i) as [m|] eqn:Em; [|discriminate].
    injection E as <-. destruct (sound_seg p R C i m So Em) as (Mr & Mc & G). split; [auto|]. split; [auto|]. intros r c Hr Hc. cbn [m_at]. destruct (G r c Hr Hc) as [G1 G2]. split; [apply (same_terms_good (m_at m r c)); auto; apply map_coef_terms|exact G2]. }
  split; [auto|]. split; [reflexivity|]. intros t. apply (mapped p (topp p) R C R C t (fun r c => (r, c)) Qopp); auto.
  - intros a a' ->. reflexivity.
  - intros i r c x Hi Hr Hc. destruct (nth_error_entry p i r c Hi) as (m & E & Em). cbn [fst snd]. rewrite Em.
    assert (Ez : nth_error (polys (topp p)) i = Some (Mat (m_rows m) (m_cols m) (fun i j => popp (m_at m i j)))) by (unfold topp; cbn [polys]; rewrite nth_error_map, E; reflexivity). rewrite (entry_nth _ i _ r c Ez). cbn [m_at].
    unfold curve, popp, map_coef, value. cbn [p_monos]. rewrite (sumval_map_coef _ Qopp (-1)) by (intros; ring). ring.
Qed.
Print Assumptions opposite_values.
(** Block: the block of the values. *)
Theorem block_values : forall p R C r0 c0 br bc, sound p R C -> spaced (breaks p) -> (r0 < R)%nat -> (c0 < C)%nat -> (r0 + br <= R)%nat -> (c0 + bc <= C)%nat ->
  exists s, Block p r0 c0 br bc = Ok s /\ sound s br bc /\ breaks s = breaks p /\
  forall t, exists M N, tvalue p t = Ok M /\ tvalue s t = Ok N /\ is_matrix N br bc (fun r c => m_at M (r0 + r)%nat (c0 + c)%nat).
Proof.
  intros p R C r0 c0 br bc So Sp H1 H2 H3 H4. pose proof (len_breaks p R C So) as LB. pose proof (polys_pos p R C So) as PP.
  destruct (make_ok (map (fun m => Mat br bc (fun i j => m_at m (r0 + i)%nat (c0 + j)%nat)) (polys p)) (breaks p) br bc) as [E Ss].
  { auto. } { rewrite map_length; auto. } { intros X; apply (f_equal (@List.length _)) in X; rewrite map_length in X; simpl in X; lia. }
  { intros i z E. rewrite nth_error_map in E. destruct (nth_error (polys p) i) as [m|] eqn:Em; [|discriminate]. injection E as <-. destruct (sound_seg p R C i m So Em) as (Mr & Mc & G). split; [auto|]. split; [auto|]. intros r c Hr Hc. cbn [m_at]. apply G; lia. }
  eexists. split; [unfold Block; rewrite (rows_ok p R C So), (cols_ok p R C So); cbn [obind]; rewrite (proj2 (Nat.ltb_lt r0 R) H1), (proj2 (Nat.ltb_lt c0 C) H2), (proj2 (Nat.leb_le _ R) H3), (proj2 (Nat.leb_le _ C) H4); cbn [andb throw_unless]; exact E|].
  split; [auto|]. split; [reflexivity|]. intros t. apply (mapped p _ R C br bc t (fun r c => ((r0 + r)%nat, (c0 + c)%nat)) (fun x => x)); auto.
  - intros r c Hr Hc. cbn [fst snd]. lia.
  - intros i r c x Hi Hr Hc. destruct (nth_error_entry p i (r0 + r)%nat (c0 + c)%nat Hi) as (m & Em & Ee). cbn [fst snd]. rewrite Ee.
    assert (Ez : nth_error (map (fun m => Mat br bc (fun i j => m_at m (r0 + i)%nat (c0 + j)%nat)) (polys p)) i = Some (Mat br bc (fun i j => m_at m (r0 + i)%nat (c0 + j)%nat))) by (rewrite nth_error_map, Em; reflexivity).
    unfold entry. cbn [polys]. rewrite (nth_error_nth _ _ _ Ez). reflexivity.
Qed.
Print Assumptions block_values.
Theorem block_rejects : forall p R C r0 c0 br bc, sound p R C -> ~ ((r0 < R)%nat /\ (c0 < C)%nat /\ (r0 + br <= R)%nat /\ (c0 + bc <= C)%nat) -> Block p r0 c0 br bc = Throw.
Proof.
  intros p R C r0 c0 br bc So H. unfold Block. rewrite (rows_ok p R C So), (cols_ok p R C So). cbn [obind]. destruct (Nat.ltb_spec r0 R); [|reflexivity]. cbn [throw_unless].
  destruct (Nat.ltb_spec c0 C); [|reflexivity]. destruct (Nat.leb_spec (r0 + br) R); [|reflexivity]. destruct (Nat.leb_spec (c0 + bc) C); [lia|reflexivity].
Qed.
Print Assumptions block_rejects.
(** Reshape: the entries in column order stay in column order. *)
Theorem reshape_values : forall p R C R2 C2, sound p R C -> (R2 * C2 = R * C)%nat ->
  exists s, Reshape p R2 C2 = Ok s /\ sound s R2 C2 /\ breaks s = breaks p /\
  forall t, exists M N, tvalue p t = Ok M /\ tvalue s t = Ok N /\ m_rows N = R2 /\ m_cols N = C2 /\
    forall r c r' c', (r < R)%nat -> (c < C)%nat -> (r' < R2)%nat -> (c' < C2)%nat -> (r + c * R = r' + c' * R2)%nat -> m_at N r' c' == m_at M r c.
Proof.
  intros p R C R2 C2 So HE. pose proof (len_breaks p R C So) as LB. pose proof (polys_pos p R C So) as PP.
  assert (Idx : forall r' c', (r' < R2)%nat -> (c' < C2)%nat -> R <> 0%nat /\ ((r' + c' * R2) mod R < R)%nat /\ ((r' + c' * R2) / R < C)%nat).
  { intros r' c' Hr Hc. assert (R <> 0%nat) by nia. split; [auto|]. split; [apply Nat.mod_upper_bound; auto|]. apply Nat.div_lt_upper_bound; [auto|]. nia. }
  set (f := fun m : mat poly => Mat R2 C2 (fun i j => m_at m ((i + j * R2) mod m_rows m) ((i + j * R2) / m_rows m))).
  assert (Ss : sound (Traj (breaks p) (map f (polys p))) R2 C2).
  { apply sound_build; [rewrite map_length; auto|intros X; apply (f_equal (@List.length _)) in X; rewrite map_length in X; simpl in X; lia|apply So|]. intros i z E. rewrite nth_error_map in E. destruct (nth_error (polys p) i) as [m|] eqn:Em; [|discriminate].
    injection E as <-. destruct (sound_seg p R C i m So Em) as (Mr & Mc & G). split; [auto|]. split; [auto|]. intros r c Hr Hc. unfold f. cbn [m_at]. rewrite Mr. apply G; apply Idx; auto. }
  eexists. split; [unfold Reshape; rewrite (rows_ok p R C So), (cols_ok p R C So); cbn [obind]; rewrite HE, Nat.eqb_refl; reflexivity|]. split; [exact Ss|]. split; [reflexivity|]. intros t.
  destruct (mapped p (Traj (breaks p) (map f (polys p))) R C R2 C2 t (fun r c => ((r + c * R2) mod R, (r + c * R2) / R)%nat) (fun x => x)) as (M & N & VM & VN & NR & NC & HN); auto.
  - intros r c Hr Hc. cbn [fst snd]. apply Idx; auto.
  - intros i r c x Hi Hr Hc. destruct (nth_error_entry p i ((r + c * R2) mod R) ((r + c * R2) / R) Hi) as (m & Em & Ee). cbn [fst snd]. rewrite Ee.
    assert (Ez : nth_error (map f (polys p)) i = Some (f m)) by (rewrite nth_error_map, Em; reflexivity). destruct (sound_seg p R C i m So Em) as (Mr & _).
    unfold entry. cbn [polys]. rewrite (nth_error_nth _ _ _ Ez). unfold f. cbn [m_at]. rewrite Mr. reflexivity.
  - exists M, N. split; [auto|]. split; [auto|]. split; [auto|]. split; [auto|]. intros r c r' c' Hr Hc Hr' Hc' Eq. rewrite HN by auto. cbn [fst snd]. rewrite <- Eq.
    rewrite Nat.mod_add by lia. rewrite Nat.mod_small by auto. rewrite Nat.div_add by lia. rewrite Nat.div_small by auto. reflexivity.
Qed.
Print Assumptions reshape_values.
Theorem reshape_rejects : forall p R C R2 C2, sound p R C -> (R2 * C2 <> R * C)%nat -> Reshape p R2 C2 = Throw.
Proof. intros p R C R2 C2 So H. unfold Reshape. rewrite (rows_ok p R C So), (cols_ok p R C So). cbn [obind]. destruct (Nat.eqb_spec (R2 * C2) (R * C)); [contradiction|reflexivity]. Qed.
Print Assumptions reshape_rejects.

(** A trajectory of 2 by 2 matrices for the examples. *)
Definition grid : traj := Traj [0; 1] [Mat 2 2 (fun r c => poly_coefs [inject_Z (Z.of_nat (10 * r + c)); 1])].
Lemma grid_sound : sound grid 2 2.
Proof.
  apply sound_build; [reflexivity|discriminate|intros [|i] Hi; cbn in *; try lia; reflexivity|]. intros [|i] m E; cbn in E; [|destruct i; discriminate]. injection E as <-. split; [reflexivity|]. split; [reflexivity|].
  intros r c _ _. cbn [m_at]. destruct (from_coefficients [inject_Z (Z.of_nat (10 * r + c)); 1]) as (G & U & _). auto.
Qed.
Example blocks_example : omap (fun M => (m_rows M, m_cols M, map (fun i => m_at M i 0%nat) [0; 1]%nat)) (obind (Block grid 0 1 2 1) (fun q => tvalue q 0)) = Ok (2%nat, 1%nat, [1; 11]) /\
  omap (fun M => (m_rows M, m_cols M, map (fun i => m_at M i 0%nat) [0; 1; 2; 3]%nat)) (obind (Reshape grid 4 1) (fun q => tvalue q 0)) = Ok (4%nat, 1%nat, [0; 10; 1; 11]) /\
  omap (fun M => map (fun i => m_at M i 0%nat) [0; 1]%nat) (tvalue (topp grid) 1) = Ok [-(1); -(11)] /\ spaced (breaks grid).
Proof. split; [vm_compute; reflexivity|]. split; [vm_compute; reflexivity|]. split; [vm_compute; reflexivity|]. intros [|i] Hi; cbn in *; try lia; vm_compute; discriminate. Qed.

(** setPolynomialMatrixBlock changes the block of one segment and nothing else. *)
Lemma set_seg_nth l i m : (i < List.length l)%nat -> forall k, nth_error (set_seg l i m) k = if Nat.eqb k i then Some m else nth_error l k.
Proof. revert i. induction l as [|a r IH]; intros i Hi k; [simpl in Hi; lia|]. destruct i as [|i]; destruct k as [|k]; cbn [set_seg nth_error Nat.eqb]; try reflexivity. apply IH. simpl in Hi. lia. Qed.
Lemma set_seg_len l m : forall i, List.length (set_seg l i m) = List.length l.
Proof. induction l as [|a r IH]; intros [|i]; cbn [set_seg List.length]; auto. Qed.
Theorem set_block : forall p R C new i r0 c0, sound p R C -> (i < List.length (polys p))%nat -> (r0 + m_rows new <= R)%nat -> (c0 + m_cols new <= C)%nat ->
  (forall r c, (r < m_rows new)%nat -> (c < m_cols new)%nat -> good (m_at new r c) /\ p_univ (m_at new r c) = true) ->
  exists s, setPolynomialMatrixBlock p new (Z.of_nat i) r0 c0 = Ok s /\ sound s R C /\ breaks s = breaks p /\
  forall k r c, (k < List.length (polys p))%nat -> (r < R)%nat -> (c < C)%nat -> exists q, getPolynomial s (Z.of_nat k) r c = Ok q /\
    (k = i /\ (r0 <= r < r0 + m_rows new)%nat /\ (c0 <= c < c0 + m_cols new)%nat -> q = m_at new (r - r0)%nat (c - c0)%nat) /\
    (k <> i \/ ~ (r0 <= r < r0 + m_rows new)%nat \/ ~ (c0 <= c < c0 + m_cols new)%nat -> getPolynomial p (Z.of_nat k) r c = Ok q).
Proof.
  intros p R C new i r0 c0 So Hi Hr0 Hc0 G. pose proof (len_breaks p R C So) as LB. pose proof (polys_pos p R C So) as PP. destruct (nth_error_entry p i 0%nat 0%nat Hi) as (m & E & _). destruct (sound_seg p R C i m So E) as (Mr & Mc & Gm).
  assert (RC : forall A (k : nat) (o : outcome A) q, List.length (breaks q) = List.length (breaks p) -> (k < List.length (polys p))%nat -> range_check q (Z.of_nat k) o = o).
  { intros A k o q Lq Hk. unfold range_check, segments. rewrite Lq. destruct (Z.leb_spec 0 (Z.of_nat k)); [|lia]. destruct (Z.ltb_spec (Z.of_nat k) (Z.of_nat (List.length (breaks p) - 1))); [reflexivity|lia]. }
  set (m' := Mat (m_rows m) (m_cols m) (fun a b => if Nat.leb r0 a && Nat.ltb a (r0 + m_rows new) && (Nat.leb c0 b && Nat.ltb b (c0 + m_cols new)) then m_at new (a - r0)%nat (b - c0)%nat else m_at m a b)).
  exists (Traj (breaks p) (set_seg (polys p) i m')). split.
  { unfold setPolynomialMatrixBlock. rewrite RC by auto. unfold seg. rewrite Nat2Z.id, E. cbn [obind]. rewrite Mr, Mc, (proj2 (Nat.leb_le _ R) Hr0), (proj2 (Nat.leb_le _ C) Hc0). cbn [andb]. unfold m'. rewrite Mr, Mc. reflexivity. }
  split; [|split; [reflexivity|]].
  - apply sound_build; [rewrite set_seg_len; auto|intros X; apply (f_equal (@List.length _)) in X; rewrite set_seg_len in X; simpl in X; lia|apply So|]. intros k z Ez. rewrite set_seg_nth in Ez by auto. destruct (Nat.eqb_spec k i).
    + injection Ez as <-. split; [auto|]. split; [auto|]. intros r c Hr Hc. unfold m'. cbn [m_at]. destruct (_ && _) eqn:B; [|apply Gm; auto]. repeat rewrite andb_true_iff in B. rewrite !Nat.leb_le, !Nat.ltb_lt in B. apply G; lia.
    + apply (sound_seg p R C k z So Ez).
  - intros k r c Hk Hr Hc. unfold getPolynomial. rewrite !RC by auto. unfold seg. rewrite !Nat2Z.id. cbn [polys]. rewrite set_seg_nth by auto. destruct (nth_error_entry p k 0%nat 0%nat Hk) as (mk & Ek & _). rewrite Ek.
    destruct (sound_seg p R C k mk So Ek) as (Mkr & Mkc & _).
    destruct (Nat.eqb_spec k i) as [->|Nk].
    + assert (mk = m) by congruence. subst mk. cbn [omap obind]. rewrite ?Mr, ?Mc. rewrite ?Mr, ?Mc. rewrite ?(proj2 (Nat.ltb_lt r R) Hr), ?(proj2 (Nat.ltb_lt c C) Hc). cbn [andb]. eexists. split; [reflexivity|]. unfold m'. cbn [m_at].
      destruct (_ && _) eqn:B; repeat rewrite andb_true_iff in B; rewrite ?Nat.leb_le, ?Nat.ltb_lt in B.
      * split; [intros; reflexivity|]. intros [X|[X|X]]; [congruence|lia|lia].
      * split; [|intros; reflexivity]. intros (_ & X & Y). exfalso. apply Bool.not_true_iff_false in B. apply B. repeat rewrite andb_true_iff. rewrite !Nat.leb_le, !Nat.ltb_lt. lia.
    + cbn [omap obind]. rewrite ?Mkr, ?Mkc, ?(proj2 (Nat.ltb_lt r R) Hr), ?(proj2 (Nat.ltb_lt c C) Hc). cbn [andb]. eexists. split; [reflexivity|]. split; [intros (X & _); contradiction|auto].
Qed.
Print Assumptions set_block.
Example set_block_example : omap p_monos (obind (setPolynomialMatrixBlock grid (scalar_mat (poly_coefs [7; 8])) 0 1 0) (fun s => getPolynomial s 0 1 0)) = Ok (p_monos (poly_coefs [7; 8])) /\
  omap p_monos (obind (setPolynomialMatrixBlock grid (scalar_mat (poly_coefs [7; 8])) 0 1 0) (fun s => getPolynomial s 0 1 1)) = Ok (p_monos (poly_coefs [11; 1])).
Proof. split; vm_compute; reflexivity. Qed.

(** isApprox: reflexive, and approximately equal trajectories have approximately equal entries. *)
Theorem approx_itself : forall p R C tol ty, sound p R C -> 0 <= tol -> isApprox p p tol ty = Ok true.
Proof.
  intros p R C tol ty So Ht. unfold isApprox. rewrite (rows_ok p R C So), (cols_ok p R C So). cbn [obind]. rewrite !Nat.eqb_refl. cbn [negb]. unfold SegmentTimesEqual. rewrite times_equal_refl by (auto; intros; reflexivity). cbn [negb]. f_equal.
  apply forallb_forall. intros [a b] H. assert (a = b) as -> by (clear - H; induction (polys p) as [|x r IH]; cbn [combine] in H; [contradiction|destruct H as [H|H]; [congruence|auto]]).
  apply forallb_forall. intros [i j] _. cbn [fst snd]. apply almost_equal_itself. auto.
Qed.
Print Assumptions approx_itself.
Theorem approx_means : forall p q R C R' C' tol ty, sound p R C -> sound q R' C' -> 0 <= tol -> isApprox p q tol ty = Ok true ->
  R' = R /\ C' = C /\ List.length (breaks q) = List.length (breaks p) /\ (forall i, (i < List.length (breaks p))%nat -> Qabs (nth i (breaks p) 0 - nth i (breaks q) 0) <= tol) /\
  forall i r c x, (i < List.length (polys p))%nat -> (r < R)%nat -> (c < C)%nat ->
    Qabs (curve (entry p i r c) x - curve (entry q i r c) x) <= tol * (slacks (fun _ => x) ty (p_monos (entry p i r c)) + slacks (fun _ => x) ty (p_monos (entry q i r c))).
Proof.
  intros p q R C R' C' tol ty So Sq Ht H. unfold isApprox in H. rewrite (rows_ok p R C So), (rows_ok q R' C' Sq), (cols_ok p R C So), (cols_ok q R' C' Sq) in H. cbn [obind] in H.
  destruct (Nat.eqb_spec R R'); [|discriminate]. cbn [negb] in H. destruct (Nat.eqb_spec C C'); [|discriminate]. cbn [negb] in H. destruct (SegmentTimesEqual p q tol) eqn:T; [|discriminate]. cbn [negb] in H. injection H as H.
  unfold SegmentTimesEqual in T. apply times_equal_inv in T. destruct T as [L T]. pose proof (len_breaks p R C So) as LB. pose proof (len_breaks q R' C' Sq) as LQ. do 3 (split; [auto|]). split; [auto|]. intros i r c x Hi Hr Hc.
  destruct (nth_error_entry p i r c Hi) as (m & E & Em). destruct (nth_error_entry q i r c ltac:(lia)) as (m' & E' & Em'). rewrite Em, Em'. apply almost_equal_values; [auto|]. rewrite forallb_forall in H.
  assert (I : In (m, m') (combine (polys p) (polys q))).
  { clear - E E'. revert i E E'. generalize (polys q). induction (polys p) as [|a l IH]; intros [|b l'] [|i] E E'; try discriminate; cbn [nth_error combine] in *; [left; congruence|right; eauto]. }
  specialize (H _ I). rewrite forallb_forall in H. apply (H (r, c)). apply in_prod; apply in_seq; lia.
Qed.
Print Assumptions approx_means.
Example approx_example : isApprox bend bend (1 # 10) kAbsolute = Ok true /\ isApprox bend (topp bend) (1 # 10) kAbsolute = Ok false /\ isApprox bend (shiftRight bend (1 # 20)) (1 # 10) kAbsolute = Ok true.
Proof. repeat split; vm_compute; reflexivity. Qed.

(** The constructor accepts exactly breaks at least kEpsilonTime apart and equally sized matrices, given one more break than matrices. *)
Theorem constructor_accepts : forall ps bs, List.length bs = S (List.length ps) -> 
  (make ps bs = Ok (Traj bs ps) <-> spaced bs /\ forall m m', In m ps -> In m' ps -> m_rows m = m_rows m' /\ m_cols m = m_cols m') /\ (make ps bs <> Ok (Traj bs ps) -> make ps bs = Throw).
Proof.
  intros ps bs L. unfold make. replace (List.length ps + 1)%nat with (List.length bs) by lia. rewrite Nat.eqb_refl. destruct (breaks_valid bs) eqn:V; cbn [throw_unless].
  - apply valid_spaced in V. destruct (match ps with [] => true | m :: r => forallb (same_dims m) r end) eqn:D; cbn [throw_unless].
    + split; [|intros X; congruence]. split; [intros _|reflexivity]. split; [auto|]. destruct ps as [|a l]; [intros ? ? []|]. rewrite forallb_forall in D.
      assert (Ha : forall m, In m (a :: l) -> m_rows a = m_rows m /\ m_cols a = m_cols m).
      { intros m [->|Hm]; [auto|]. specialize (D m Hm). unfold same_dims in D. apply andb_true_iff in D. destruct D as [D1 D2]. apply Nat.eqb_eq in D1, D2. auto. }
      intros m m' Hm Hm'. destruct (Ha m Hm), (Ha m' Hm'). split; congruence.
    + split; [|auto]. split; [discriminate|]. intros [_ H]. destruct ps as [|a l]; [discriminate|]. exfalso. apply Bool.not_true_iff_false in D. apply D. apply forallb_forall. intros m Hm. unfold same_dims.
      destruct (H a m (or_introl eq_refl) (or_intror Hm)) as [-> ->]. rewrite !Nat.eqb_refl. reflexivity.
  - split; [|auto]. split; [discriminate|]. intros [S _]. apply valid_spaced in S. congruence.
Qed.
Print Assumptions constructor_accepts.
Example constructor_example : make (polys bend) [0; 1; 3] = Ok bend /\ make (polys bend) [0; 1; 1] = Throw.
Proof. split; vm_compute; reflexivity. Qed.
