(** Trajectories through samples. *)
From Coq Require Import List QArith Qabs ZArith NArith Bool Arith Lia Lqa.
From Verif Require Import Base Poly_Model Poly_Spec Poly_Proofs Poly_Proofs2 Poly_Proofs3 Poly_Props Traj_Model Traj_Spec Traj_Proofs Traj_Proofs2 Traj_Proofs3 Traj_Proofs4.
Import ListNotations.

Lemma times_spaced l : times_valid l = true <-> spaced l.
Proof.
  induction l as [|a [|b l] IH]; [split; [intros _ i Hi; simpl in Hi; lia|reflexivity]|split; [intros _ i Hi; simpl in Hi; lia|reflexivity]|].
  change (times_valid (a :: b :: l)) with (Qltb a b && Qleb kEpsilonTime (b - a) && times_valid (b :: l)). rewrite !andb_true_iff, IH. split.
  - intros [[H0 H1] H2] [|i] Hi; [apply Qleb_true in H1; exact H1|]. apply (H2 i). simpl in *. lia.
  - intros H. assert (X : kEpsilonTime <= b - a) by (apply (H 0%nat); simpl; lia). pose proof eps_pos. split; [split; [apply Qltb_true; lra|apply Qleb_true; auto]|]. intros i Hi. apply (H (S i)). simpl in *. lia.
Qed.
Lemma check_ok {A} bs ys R C least (k : outcome A) : (1 <= least)%nat -> well_sampled bs ys R C least -> check_input bs ys least k = k /\ m_rows (sample ys 0) = R /\ m_cols (sample ys 0) = C.
Proof.
  intros L1 (L & Lm & HR & HC & F & Sp). unfold check_input. rewrite L, Nat.eqb_refl. cbn [throw_unless]. rewrite (proj2 (Nat.leb_le _ _) Lm). cbn [throw_unless].
  destruct ys as [|y ys]; [simpl in L; lia|]. inversion F as [|? ? [A1 A2] F']; subst. rewrite (proj2 (Nat.leb_le _ _) HR), (proj2 (Nat.leb_le _ _) HC). cbn [andb throw_unless].
  replace (forallb (same_dims y) (y :: ys)) with true.
  - rewrite (proj2 (times_spaced bs) Sp). auto.
  - symmetry. apply forallb_forall. intros x I. rewrite Forall_forall in F. destruct (F x I) as [B1 B2]. unfold same_dims. rewrite B1, B2, !Nat.eqb_refl. reflexivity.
Qed.
Lemma check_inv {A} bs ys least (k : outcome A) a : (1 <= least)%nat -> check_input bs ys least k = Ok a -> k = Ok a /\ well_sampled bs ys (m_rows (sample ys 0)) (m_cols (sample ys 0)) least.
Proof.
  intros L1. unfold check_input. destruct (Nat.eqb_spec (List.length bs) (List.length ys)) as [L|]; [|discriminate]. cbn [throw_unless]. destruct (Nat.leb_spec least (List.length bs)); [|discriminate]. cbn [throw_unless].
  destruct ys as [|y ys]; [discriminate|]. destruct (Nat.leb_spec 1 (m_rows y)); [|discriminate]. destruct (Nat.leb_spec 1 (m_cols y)); [|discriminate]. cbn [andb throw_unless].
  destruct (forallb (same_dims y) (y :: ys)) eqn:E; [|discriminate]. cbn [throw_unless]. destruct (times_valid bs) eqn:T; [|discriminate]. cbn [throw_unless]. intros K. split; [auto|].
  split; [auto|]. split; [auto|]. cbn [sample nth]. split; [auto|]. split; [auto|]. split; [|apply times_spaced; auto]. rewrite Forall_forall. rewrite forallb_forall in E. intros x I. specialize (E x I).
  unfold same_dims in E. apply andb_true_iff in E. destruct E as [E1 E2]. apply Nat.eqb_eq in E1, E2. auto.
Qed.
Lemma check_no_ub {A} bs ys least (k : outcome A) : (1 <= least)%nat -> k <> UB -> check_input bs ys least k <> UB.
Proof.
  intros L1 K. unfold check_input. destruct (Nat.eqb_spec (List.length bs) (List.length ys)); [|discriminate]. cbn [throw_unless]. destruct (Nat.leb_spec least (List.length bs)); [|discriminate]. cbn [throw_unless].
  destruct ys; [simpl in *; lia|]. repeat (match goal with |- throw_unless ?b _ <> UB => destruct b; [cbn [throw_unless]|discriminate] end). exact K.
Qed.

(** Trajectories from a list of coefficients for every segment and entry. *)
Lemma build_ok bs R C L : spaced bs -> (2 <= List.length bs)%nat ->
  let p := Traj bs (map (fun i => Mat R C (fun j k => poly_coefs (L i j k))) (seq 0 (List.length bs - 1))) in
  make (polys p) bs = Ok p /\ sound p R C /\ List.length (polys p) = (List.length bs - 1)%nat /\ forall i r c, (i < List.length bs - 1)%nat -> entry p i r c = poly_coefs (L i r c).
Proof.
  intros Sp Ln p. assert (Lp : List.length (polys p) = (List.length bs - 1)%nat) by (unfold p; cbn [polys]; rewrite map_length, seq_length; auto).
  assert (En : forall i, (i < List.length bs - 1)%nat -> nth_error (polys p) i = Some (Mat R C (fun j k => poly_coefs (L i j k)))).
  { intros i Hi. unfold p. cbn [polys]. rewrite nth_error_map. assert (X : nth_error (seq 0 (List.length bs - 1)) i = Some i).
    { rewrite (nth_error_nth' _ 0%nat) by (rewrite seq_length; auto). rewrite seq_nth by auto. reflexivity. } rewrite X. reflexivity. }
  destruct (make_ok (polys p) bs R C) as [E So]; auto.
  - lia.
  - intros X. rewrite X in Lp. simpl in Lp. lia.
  - intros i m E. assert (i < List.length bs - 1)%nat by (rewrite <- Lp; apply nth_error_Some; congruence). rewrite En in E by auto. injection E as <-. cbn [m_rows m_cols m_at]. split; [auto|]. split; [auto|].
    intros r c _ _. destruct (from_coefficients (L i r c)) as (G & U & _). auto.
  - split; [exact E|]. split; [exact So|]. split; [exact Lp|]. intros i r c Hi. apply (entry_nth p i _ r c (En i Hi)).
Qed.

Lemma hermite_ok bs R C y yd : spaced bs -> (2 <= List.length bs)%nat -> exists p, obind (hermite_segments bs R C y yd) (fun ps => make ps bs) = Ok p /\ sound p R C /\ breaks p = bs /\
  List.length (polys p) = (List.length bs - 1)%nat /\
  forall i r c, (i < List.length bs - 1)%nat -> (r < R)%nat -> (c < C)%nat -> entry p i r c = poly_coefs (cubic_at (nth (S i) bs 0 - nth i bs 0) (y i r c) (y (S i) r c) (yd i r c) (yd (S i) r c)).
Proof.
  intros Sp Ln. unfold hermite_segments.
  set (f := fun t => each poly_zero R C (fun i j => omap poly_coefs (cubic_coeffs (nth (S t) bs 0 - nth t bs 0) (y t i j) (y (S t) i j) (yd t i j) (yd (S t) i j)))).
  assert (Hf : forall t, (t < List.length bs - 1)%nat -> exists m, f t = Ok m /\ m_rows m = R /\ m_cols m = C /\
    forall r c, (r < R)%nat -> (c < C)%nat -> m_at m r c = poly_coefs (cubic_at (nth (S t) bs 0 - nth t bs 0) (y t r c) (y (S t) r c) (yd t r c) (yd (S t) r c))).
  { intros t Ht. destruct (each_ok poly_zero R C (fun i j => omap poly_coefs (cubic_coeffs (nth (S t) bs 0 - nth t bs 0) (y t i j) (y (S t) i j) (yd t i j) (yd (S t) i j)))) as (m & Em & Mr & Mc & Mf).
    - intros r c _ _. rewrite cubic_ok by (apply Sp; lia). cbn [omap]. eauto.
    - exists m. split; [exact Em|]. split; [auto|]. split; [auto|]. intros r c Hr Hc. specialize (Mf r c Hr Hc). cbv beta in Mf. rewrite cubic_ok in Mf by (apply Sp; lia). cbn [omap] in Mf. congruence. }
  destruct (mapM_ok f (seq 0 (List.length bs - 1))) as [l E].
  { intros t I. apply in_seq in I. destruct (Hf t ltac:(lia)) as (m & -> & _). eauto. }
  rewrite E. cbn [obind]. apply mapM_inv in E. pose proof (f2_len _ _ _ E) as Le. rewrite seq_length in Le.
  assert (En : forall i, (i < List.length bs - 1)%nat -> exists m, nth_error l i = Some m /\ f i = Ok m).
  { intros i Hi. destruct (Forall2_nth _ _ _ E i i) as (m & A & B); [|eauto]. rewrite (nth_error_nth' _ 0%nat) by (rewrite seq_length; auto). rewrite seq_nth by auto. reflexivity. }
  destruct (make_ok l bs R C) as [Em So]; auto.
  - lia.
  - intros ->. simpl in Le. lia.
  - intros i m Ei. assert (Li : (i < List.length bs - 1)%nat) by (rewrite Le; apply nth_error_Some; congruence). destruct (En i Li) as (m' & E1 & E2). destruct (Hf i Li) as (m2 & E3 & A & B & D).
    assert (m' = m) by congruence. assert (m2 = m) by congruence. subst. split; [auto|]. split; [auto|]. intros r c Hr Hc. rewrite D by auto.
    destruct (from_coefficients (cubic_at (nth (S i) bs 0 - nth i bs 0) (y i r c) (y (S i) r c) (yd i r c) (yd (S i) r c))) as (G & U & _). auto.
  - exists (Traj bs l). split; [exact Em|]. split; [exact So|]. split; [reflexivity|]. split; [auto|]. intros i r c Hi Hr Hc. destruct (En i Hi) as (m' & E1 & E2). destruct (Hf i Hi) as (m2 & E3 & _ & _ & D).
    assert (m2 = m') by congruence. subst. rewrite (entry_nth (Traj bs l) i m' r c E1). apply D; auto.
Qed.

(** Values at the breaks. *)
Lemma span_break (l : list Q) i : rising l -> (S i < List.length l)%nat -> span l (nth i l 0) i.
Proof. intros RI H. apply span_lt; [auto|lra|apply RI; auto]. Qed.
Lemma span_last (l : list Q) i : rising l -> S (S i) = List.length l -> span l (nth (S i) l 0) i.
Proof. intros RI H. split; [lia|]. split; [apply Qlt_le_weak; apply RI; lia|right; split; [auto|reflexivity]]. Qed.
Lemma break_in p R C i : sound p R C -> (i < List.length (breaks p))%nat -> first_break p <= nth i (breaks p) 0 <= last_break p.
Proof. intros So H. unfold first_break, last_break. rewrite hd_nth, last_nth. split; apply rising_le; try apply So; lia. Qed.
Lemma knot p R C k z r c : sound p R C -> (r < R)%nat -> (c < C)%nat ->
  (forall i, (i < List.length (polys p))%nat -> exists g, derives k (curve (entry p i r c)) g /\ g 0 == z i /\ (S i = List.length (polys p) -> g (nth (S i) (breaks p) 0 - nth i (breaks p) 0) == z (S i))) ->
  forall i M, (i < List.length (breaks p))%nat -> EvalDerivative p (nth i (breaks p) 0) k = Ok M -> m_at M r c == z i.
Proof.
  intros So Hr Hc H i M Hi V. pose proof (len_breaks p R C So) as LB. pose proof (polys_pos p R C So) as PP. assert (RI : rising (breaks p)) by apply So.
  assert (Cl : closest (first_break p) (last_break p) (nth i (breaks p) 0) (nth i (breaks p) 0)) by (apply closest_self; eapply break_in; eauto).
  assert (Gp : forall j g x y, (j < List.length (polys p))%nat -> derives k (curve (entry p j r c)) g -> x == y -> g x == g y).
  { intros j g x y Hj D E. destruct (sound_entry p R C j r c So Hj Hr Hc) as [G U]. pose proof (derives_unique k _ _ _ _ (fun _ => Qeq_refl _) D (dsum_of_curve _ k G U)) as X.
    rewrite (X x), (X y). apply dsum_proper; auto. }
  destruct (Nat.eq_dec i (List.length (polys p))) as [->|Ni].
  - destruct (List.length (polys p)) as [|N] eqn:EN; [lia|]. destruct (H N ltac:(lia)) as (g & D & G0 & G1).
    rewrite (eval_derives p R C _ k M So V N (nth (S N) (breaks p) 0) Cl (span_last _ N RI ltac:(lia)) r c g Hr Hc D). apply G1. reflexivity.
  - destruct (H i ltac:(lia)) as (g & D & G0 & _). rewrite (eval_derives p R C _ k M So V i (nth i (breaks p) 0) Cl (span_break _ i RI ltac:(lia)) r c g Hr Hc D).
    rewrite <- G0. apply (Gp i g); [lia|exact D|ring].
Qed.

(** PCHIP slopes. *)
Definition tame (s d : Q) : Prop := (0 <= s -> 0 <= d <= 3 * s) /\ (s <= 0 -> 3 * s <= d <= 0).
Lemma tame_zero s : tame s 0.
Proof. split; intros; lra. Qed.
Lemma inner_tame dt0 dt1 s0 s1 : 0 < dt0 -> 0 < dt1 -> tame s0 (inner_slope dt0 dt1 s0 s1) /\ tame s1 (inner_slope dt0 dt1 s0 s1).
Proof.
  intros H0 H1. unfold inner_slope. destruct (Qleb (s0 * s1) 0) eqn:E; [split; apply tame_zero|]. apply Qleb_false in E.
  set (c := dt0 + dt1). set (den := (c + dt1) * s1 + (c + dt0) * s0).
  assert (N0 : ~ s0 == 0) by (intros X; rewrite X in E; lra). assert (N1 : ~ s1 == 0) by (intros X; rewrite X in E; lra).
  assert (Sg : (0 < s0 /\ 0 < s1) \/ (s0 < 0 /\ s1 < 0)).
  { destruct (Qlt_le_dec 0 s0) as [A|A]; [left|right]; split; auto; try (apply Qnot_le_lt; intros B; nra). }
  assert (Dn : ~ den == 0) by (unfold den, c; destruct Sg as [[A B]|[A B]]; intros X; nra).
  cbv zeta. set (H := 3 * c / ((c + dt1) / s0 + (c + dt0) / s1)).
  assert (EH : H * den == 3 * c * (s0 * s1)).
  { unfold H, den. field. split; [|split; auto]. intros X. apply Dn. unfold den. lra. }
  unfold tame. unfold den, c in *. clearbody H. destruct Sg as [[A B]|[A B]].
  - assert (0 <= H) by (apply Qnot_lt_le; intros X; nra). assert (H <= 3 * s0) by (apply Qnot_lt_le; intros X; nra). assert (H <= 3 * s1) by (apply Qnot_lt_le; intros X; nra). repeat split; intros; lra.
  - assert (H <= 0) by (apply Qnot_lt_le; intros X; nra). assert (3 * s0 <= H) by (apply Qnot_lt_le; intros X; nra). assert (3 * s1 <= H) by (apply Qnot_lt_le; intros X; nra). repeat split; intros; lra.
Qed.
