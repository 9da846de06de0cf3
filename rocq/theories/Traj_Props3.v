(** Trajectories through samples (C76). *)
From Coq Require Import List QArith Qabs ZArith NArith Bool Arith Lia Lqa.
From Verif Require Import Base Poly_Model Poly_Spec Poly_Proofs Poly_Proofs2 Poly_Proofs3 Poly_Props Traj_Model Traj_Spec Traj_Proofs Traj_Proofs2 Traj_Proofs3 Traj_Proofs4 Traj_Proofs5 Traj_Proofs6 Traj_Proofs7 Traj_Proofs8 Traj_Proofs9 Traj_Proofs10 Traj_Props.
Import ListNotations.

Definition row (l : list Q) : list (mat Q) := map scalar_mat l.
Lemma row_well l bs least : List.length l = List.length bs -> (least <= List.length bs)%nat -> spaced bs -> well_sampled bs (row l) 1 1 least.
Proof. intros L M S. split; [unfold row; rewrite map_length; auto|]. split; [auto|]. split; [auto|]. split; [auto|]. split; [|auto]. apply Forall_forall. intros y H. apply in_map_iff in H. destruct H as (q & <- & _). auto. Qed.
Lemma step_well : well_sampled [0; 1; 3] (row [2; 5; 1]) 1 1 3.
Proof. apply row_well; [reflexivity|cbn; lia|]. intros [|[|i]] Hi; cbn in *; try lia; vm_compute; discriminate. Qed.
Lemma less_sampled bs ys R C k k' : (k' <= k)%nat -> well_sampled bs ys R C k -> well_sampled bs ys R C k'.
Proof. intros L (A & B & D). split; [auto|]. split; [lia|auto]. Qed.

(** ZeroOrderHold: over each segment the value is the sample at its start (the last sample is never used). *)
Theorem zero_order_hold : forall bs ys R C, well_sampled bs ys R C 2 -> exists p, ZeroOrderHold bs ys = Ok p /\ sound p R C /\ breaks p = bs /\
  forall t i, span bs t i -> exists M, tvalue p t = Ok M /\ is_matrix M R C (sampled ys i).
Proof.
  intros bs ys R C W. unfold ZeroOrderHold. destruct (check_ok bs ys R C 2 (make (map (fun i => Mat (m_rows (sample ys 0)) (m_cols (sample ys 0)) (fun j k => poly_coefs [m_at (sample ys i) j k])) (seq 0 (List.length bs - 1))) bs) ltac:(lia) W) as (-> & -> & ->).
  destruct W as (_ & L & _ & _ & _ & Sp). destruct (build_ok bs R C (fun i j k => [m_at (sample ys i) j k]) Sp L) as (E & So & Lp & Ent). eexists. split; [exact E|]. split; [exact So|]. split; [reflexivity|].
  intros t i Hs. destruct (value_total _ R C t So) as (M & V & MR & MC). exists M. split; [auto|]. split; [auto|]. split; [auto|]. intros r c Hr Hc. pose proof (proj1 Hs) as Hi. rewrite (value_at _ R C t M i So V Hs r c Hr Hc), Ent by lia.
  destruct (from_coefficients [m_at (sample ys i) r c]) as (_ & _ & F). rewrite F. cbn [horner]. unfold sampled, sample. ring.
Qed.
Print Assumptions zero_order_hold.
Example zero_order_example : map (fun t => omap (fun M => m_at M 0%nat 0%nat) (obind (ZeroOrderHold [0; 1; 3] (row [2; 5; 1])) (fun p => tvalue p t))) [0; 1 # 2; 1; 3] = [Ok 2; Ok 2; Ok 5; Ok 5].
Proof. vm_compute. reflexivity. Qed.

(** FirstOrderHold: linear between the samples. *)
Theorem first_order_hold : forall bs ys R C, well_sampled bs ys R C 2 -> exists p, FirstOrderHold bs ys = Ok p /\ sound p R C /\ breaks p = bs /\ passes_through p ys R C /\ smooth p R C 0 /\
  forall t i, span bs t i -> exists M, tvalue p t = Ok M /\ is_matrix M R C (fun r c => sampled ys i r c + (t - nth i bs 0) / (nth (S i) bs 0 - nth i bs 0) * (sampled ys (S i) r c - sampled ys i r c)).
Proof.
  intros bs ys R C W. unfold FirstOrderHold. set (L1 := fun i j k => [m_at (sample ys i) j k; (m_at (sample ys (S i)) j k - m_at (sample ys i) j k) / (nth (S i) bs 0 - nth i bs 0)]).
  destruct (check_ok bs ys R C 2 (make (map (fun i => Mat (m_rows (sample ys 0)) (m_cols (sample ys 0)) (fun j k => poly_coefs (L1 i j k))) (seq 0 (List.length bs - 1))) bs) ltac:(lia) W) as (X & XR & XC).
  unfold L1 in X. rewrite X, XR, XC. destruct W as (_ & L & _ & _ & _ & Sp). destruct (build_ok bs R C L1 Sp L) as (E & So & Lp & Ent). eexists. split; [exact E|]. split; [exact So|]. split; [reflexivity|].
  set (p := Traj bs (map (fun i => Mat R C (fun j k => poly_coefs (L1 i j k))) (seq 0 (List.length bs - 1)))) in *.
  assert (Cv : forall i r c x, (S i < List.length bs)%nat -> curve (entry p i r c) x == sampled ys i r c + x / (nth (S i) bs 0 - nth i bs 0) * (sampled ys (S i) r c - sampled ys i r c)).
  { intros i r c x Hi. rewrite Ent by lia. destruct (from_coefficients (L1 i r c)) as (_ & _ & F). rewrite F. unfold L1. cbn [horner]. change (m_at (sample ys ?k)) with (sampled ys k). pose proof (spaced_pos bs i Sp Hi). unfold sampled, sample. field. lra. }
  assert (Th : passes_through p ys R C /\ smooth p R C 0).
  { apply through; [exact So|]. intros i r c Hi Hr Hc. rewrite Lp in Hi. rewrite !Cv by lia. change (breaks p) with bs. pose proof (spaced_pos bs i Sp ltac:(lia)). split; field; lra. }
  split; [apply Th|]. split; [apply Th|]. intros t i Hs. destruct (value_total _ R C t So) as (M & V & MR & MC). exists M. split; [auto|]. split; [auto|]. split; [auto|]. intros r c Hr Hc.
  rewrite (value_at _ R C t M i So V Hs r c Hr Hc), Cv by apply Hs. reflexivity.
Qed.
Print Assumptions first_order_hold.
Example first_order_example : map (fun t => omap (fun M => Qred (m_at M 0%nat 0%nat)) (obind (FirstOrderHold [0; 1; 3] (row [2; 5; 1])) (fun p => tvalue p t))) [0; 1 # 2; 1; 2; 3] = [Ok 2; Ok (7 # 2); Ok 5; Ok 3; Ok 1].
Proof. vm_compute. reflexivity. Qed.

(** CubicHermite: cubics through the samples with the given slopes. *)
Theorem cubic_hermite : forall bs ys yds R C, well_sampled bs ys R C 2 -> well_sampled bs yds R C 2 -> exists p, CubicHermite bs ys yds = Ok p /\ sound p R C /\ breaks p = bs /\
  passes_through p ys R C /\ slopes_through p yds R C /\ smooth p R C 0 /\ smooth p R C 1 /\ of_order p R C 4.
Proof.
  intros bs ys yds R C W W'. unfold CubicHermite. match goal with |- context [check_input bs ys 2 ?k] => destruct (check_ok bs ys R C 2 k ltac:(lia) W) as (X & XR & XC) end. rewrite X. rewrite XR, XC.
  destruct W as (LY & L & _ & _ & _ & Sp). destruct W' as (LD & _ & _ & _ & FD & _). rewrite LD, Nat.eqb_refl. cbn [throw_unless].
  replace (forallb (same_dims (sample ys 0)) yds) with true by (symmetry; apply forallb_forall; intros m Hm; rewrite Forall_forall in FD; destruct (FD m Hm) as [A B]; unfold same_dims; rewrite XR, XC, A, B, !Nat.eqb_refl; reflexivity). cbn [throw_unless].
  destruct (hermite_ok bs R C (fun t => m_at (sample ys t)) (fun t => m_at (sample yds t)) Sp L) as (p & E & So & B & Lp & Ent). exists p. split; [auto|]. split; [auto|]. split; [auto|].
  destruct (cubic_traj p bs R C ys (sampled yds) So B Sp) as (T1 & T2 & T3 & T4 & T5); [intros i r c Hi Hr Hc; apply Ent; auto; lia|]. auto 8.
Qed.
Print Assumptions cubic_hermite.
Example cubic_hermite_example : omap (fun M => Qred (m_at M 0%nat 0%nat)) (obind (CubicHermite [0; 1; 3] (row [2; 5; 1]) (row [0; 7; 0])) (fun p => tvalue p 1)) = Ok 5 /\
  omap (fun M => Qred (m_at M 0%nat 0%nat)) (obind (CubicHermite [0; 1; 3] (row [2; 5; 1]) (row [0; 7; 0])) (fun p => EvalDerivative p 1 1)) = Ok 7.
Proof. split; vm_compute; reflexivity. Qed.

(** CubicShapePreserving: through the samples, with continuous slopes; with zero end slopes where asked for; and between two samples
    the value moves in one direction, that of the samples. The last needs end secants steeper than kSlopeEpsilon, or zero end slopes. *)
Theorem shape_preserving : forall bs ys R C (zero : bool), well_sampled bs ys R C (if zero then 2 else 3) -> exists p, CubicShapePreserving bs ys zero = Ok p /\ sound p R C /\ breaks p = bs /\
  passes_through p ys R C /\ smooth p R C 0 /\ smooth p R C 1 /\ of_order p R C 4 /\
  (zero = true -> exists M N, EvalDerivative p (first_break p) 1 = Ok M /\ EvalDerivative p (last_break p) 1 = Ok N /\ is_matrix M R C (fun _ _ => 0) /\ is_matrix N R C (fun _ _ => 0)) /\
  forall r c, (r < R)%nat -> (c < C)%nat ->
    (zero = false -> let n := List.length bs in kSlopeEpsilon < Qabs ((sampled ys 1 r c - sampled ys 0 r c) / (nth 1 bs 0 - nth 0 bs 0)) /\
                     kSlopeEpsilon < Qabs ((sampled ys (n - 1) r c - sampled ys (n - 2) r c) / (nth (n - 1) bs 0 - nth (n - 2) bs 0))) ->
    forall i t t', (S i < List.length bs)%nat -> nth i bs 0 <= t -> t <= t' -> t' <= nth (S i) bs 0 -> exists M M', tvalue p t = Ok M /\ tvalue p t' = Ok M' /\
      (sampled ys i r c <= sampled ys (S i) r c -> m_at M r c <= m_at M' r c) /\ (sampled ys (S i) r c <= sampled ys i r c -> m_at M' r c <= m_at M r c).
Proof.
  intros bs ys R C zero W. unfold CubicShapePreserving. assert (L1 : (1 <= (if zero then 2 else 3))%nat) by (destruct zero; lia). match goal with |- context [check_input bs ys ?n ?k] => destruct (check_ok bs ys R C n k L1 W) as (X & XR & XC) end. rewrite X. rewrite XR, XC.
  assert (L : (2 <= List.length bs)%nat /\ (zero = false -> (3 <= List.length bs)%nat)) by (destruct W as (_ & L & _); destruct zero; split; try lia; discriminate). destruct L as [L L3]. destruct W as (LY & _ & _ & _ & _ & Sp).
  set (d := fun t i j => pchip_slope bs zero (fun s => m_at (sample ys s) i j) t).
  destruct (hermite_ok bs R C (fun t => m_at (sample ys t)) d Sp L) as (p & E & So & B & Lp & Ent). exists p. split; [exact E|]. split; [auto|]. split; [auto|].
  destruct (cubic_traj p bs R C ys d So B Sp) as (T1 & T2 & T3 & T4 & T5); [intros i r c Hi Hr Hc; apply Ent; auto; lia|]. split; [auto|]. split; [auto|]. split; [auto|]. split; [auto|]. split.
  - intros Z. pose proof (T5 0%nat ltac:(rewrite B; lia)) as (M & VM & MR & MC & HM). pose proof (T5 (List.length bs - 1)%nat ltac:(rewrite B; lia)) as (N & VN & NR & NC & HN). rewrite B in VM, VN. exists M, N.
    split; [unfold first_break; rewrite hd_nth, B; auto|]. split; [unfold last_break; rewrite last_nth, B; auto|].
    split; (split; [auto|]); (split; [auto|]); intros r c Hr Hc; [rewrite HM by auto|rewrite HN by auto]; unfold d, pchip_slope; cbv zeta; rewrite Z; [reflexivity|]. replace (Nat.eqb (List.length bs - 1) 0) with false by (symmetry; apply Nat.eqb_neq; lia). rewrite Nat.eqb_refl. reflexivity.
  - intros r c Hr Hc Steep i t t' Hi H1 H2 H3. destruct (value_total p R C t So) as (M & V & _). destruct (value_total p R C t' So) as (M' & V' & _). exists M, M'. split; [auto|]. split; [auto|].
    rewrite (piece_value p R C i t r c M So T2 Hr Hc ltac:(lia) ltac:(rewrite B; lra) V), (piece_value p R C i t' r c M' So T2 Hr Hc ltac:(lia) ltac:(rewrite B; lra) V'). rewrite B. rewrite Ent by (auto; lia).
    destruct (from_coefficients (cubic_at (nth (S i) bs 0 - nth i bs 0) (m_at (sample ys i) r c) (m_at (sample ys (S i)) r c) (d i r c) (d (S i) r c))) as (_ & _ & F). rewrite !F.
    pose proof (spaced_pos bs i Sp Hi) as P. destruct (pchip_tame bs zero (fun s => m_at (sample ys s) r c) i Sp Hi L L3) as [[A1 A2] [B1 B2]]; [intros Z; apply (Steep Z)|intros Z; apply (Steep Z)|].
    destruct (slope_sign (m_at (sample ys i) r c) (m_at (sample ys (S i)) r c) (nth (S i) bs 0 - nth i bs 0) P) as [S1 S2]. split; intros Y.
    + apply hermite_rises; try lra; [exact Y|apply A1; apply S1; exact Y|apply B1; apply S1; exact Y].
    + apply hermite_falls; try lra; [exact Y|apply A2; apply S2; exact Y|apply B2; apply S2; exact Y].
Qed.
Print Assumptions shape_preserving.
Example shape_preserving_example : map (fun t => omap (fun M => Qred (m_at M 0%nat 0%nat)) (obind (CubicShapePreserving [0; 1; 3] (row [2; 5; 1]) false) (fun p => tvalue p t))) [0; 1; 3] = [Ok 2; Ok 5; Ok 1] /\
  kSlopeEpsilon < Qabs ((5 - 2) / (1 - 0)) /\ kSlopeEpsilon < Qabs ((1 - 5) / (3 - 1)).
Proof. repeat split; vm_compute; reflexivity. Qed.
(** With smaller slopes the end slope may point the wrong way, and rising samples are interpolated by a falling cubic. *)
Theorem shape_preserving_refuted : exists bs ys p M M' t, well_sampled bs ys 1 1 3 /\ CubicShapePreserving bs ys false = Ok p /\ (forall i, (S i < List.length bs)%nat -> sampled ys i 0 0 < sampled ys (S i) 0 0) /\
  nth 0 bs 0 < t < nth 1 bs 0 /\ tvalue p (nth 0 bs 0) = Ok M /\ tvalue p t = Ok M' /\ m_at M' 0%nat 0%nat < m_at M 0%nat 0%nat.
Proof.
  set (bs := [0; 1; 2]). set (ys := row [0; 1 # 100000000000; 10 # 100000000000]).
  assert (W : well_sampled bs ys 1 1 3) by (apply row_well; [reflexivity|cbn; lia|intros [|[|i]] Hi; cbn in *; try lia; vm_compute; discriminate]).
  destruct (shape_preserving bs ys 1 1 false W) as (p & E & So & _). destruct (value_total p 1 1 0 So) as (M & V & _). destruct (value_total p 1 1 (1 # 4) So) as (M' & V' & _). exists bs, ys, p, M, M', (1 # 4).
  split; [auto|]. split; [auto|]. split; [intros [|[|i]] Hi; cbn in Hi; try lia; vm_compute; reflexivity|]. split; [split; vm_compute; reflexivity|]. split; [exact V|]. split; [exact V'|].
  assert (X : Qltb 0 0 = false) by reflexivity.
  assert (Y : obind (CubicShapePreserving bs ys false) (fun p => obind (tvalue p 0) (fun M => omap (fun M' => Qltb (m_at M' 0%nat 0%nat) (m_at M 0%nat 0%nat)) (tvalue p (1 # 4)))) = Ok true) by (vm_compute; reflexivity).
  rewrite E in Y. cbn [obind] in Y. rewrite V in Y. cbn [obind] in Y. rewrite V' in Y. cbn [omap] in Y. injection Y as Y. apply Qltb_true in Y. exact Y.
Qed.
Print Assumptions shape_preserving_refuted.

(** Splines with continuous second derivatives. The system is solved by Eigen; if what it returns solves
    the system, the trajectory is what the documentation says. *)
Theorem clamped_spline : forall solve bs ys R C ds de, well_sampled bs ys R C 2 -> m_rows ds = R -> m_cols ds = C -> m_rows de = R -> m_cols de = C ->
  (forall r c, (r < R)%nat -> (c < C)%nat -> let st := clamped_system bs (fun i => sampled ys i r c) (m_at ds r c) (m_at de r c) in solves st (solve st)) ->
  exists p, CubicClamped solve bs ys ds de = Ok p /\ sound p R C /\ breaks p = bs /\ passes_through p ys R C /\ smooth p R C 0 /\ smooth p R C 1 /\ smooth p R C 2 /\ of_order p R C 4 /\
  exists M N, EvalDerivative p (first_break p) 1 = Ok M /\ EvalDerivative p (last_break p) 1 = Ok N /\ agree R C M ds /\ agree R C N de.
Proof.
  intros solve bs ys R C ds de W D1 D2 E1 E2 S. unfold CubicClamped. match goal with |- context [check_input bs ys 2 ?k] => destruct (check_ok bs ys R C 2 k ltac:(lia) W) as (X & XR & XC) end. rewrite X. unfold same_dims. rewrite XR, XC, D1, D2, E1, E2, !Nat.eqb_refl. cbn [andb throw_unless].
  destruct W as (LY & L & _ & _ & _ & Sp). set (x := fun j k => solve (clamped_system bs (fun i => m_at (sample ys i) j k) (m_at ds j k) (m_at de j k))).
  destruct (build_ok bs R C (fun i j k => [m_at (sample ys i) j k; x j k (3 * i)%nat; x j k (3 * i + 1)%nat; x j k (3 * i + 2)%nat]) Sp L) as (E & So & Lp & Ent). eexists. split; [exact E|]. split; [exact So|]. split; [reflexivity|].
  set (p := Traj bs (map (fun i => Mat R C (fun j k => poly_coefs [m_at (sample ys i) j k; x j k (3 * i)%nat; x j k (3 * i + 1)%nat; x j k (3 * i + 2)%nat])) (seq 0 (List.length bs - 1)))) in *.
  assert (Q : forall r c, (r < R)%nat -> (c < C)%nat -> (forall i, (Datatypes.S i < List.length bs)%nat -> segment_equations bs (fun i => sampled ys i r c) (x r c) i) /\ x r c 0%nat == m_at ds r c /\
     let k := (List.length bs - 2)%nat in let dt := nth (List.length bs - 1) bs 0 - nth k bs 0 in x r c (3 * k)%nat + 2 * dt * x r c (3 * k + 1)%nat + 3 * dt * dt * x r c (3 * k + 2)%nat == m_at de r c).
  { intros r c Hr Hc. apply (clamped_ok bs (fun i => m_at (sample ys i) r c) (x r c) (m_at ds r c) (m_at de r c) L). apply (S r c Hr Hc). }
  assert (EP : forall i r c, (i < List.length (polys p))%nat -> (r < R)%nat -> (c < C)%nat -> entry p i r c = poly_coefs [sampled ys i r c; x r c (3 * i)%nat; x r c (3 * i + 1)%nat; x r c (3 * i + 2)%nat]) by (intros i r c Hi _ _; apply Ent; lia).
  destruct (spline_traj p bs R C ys x So eq_refl Sp EP) as (T1 & T2 & T3 & T4 & T5); [intros r c Hr Hc; apply Q; auto|]. do 5 (split; [auto|]). pose proof (polys_pos p R C So) as PP.
  destruct (eval_works p R C (first_break p) 1 So) as (M & VM & MR & MC & _). destruct (eval_works p R C (last_break p) 1 So) as (N & VN & NR & NC & _). exists M, N. split; [auto|]. split; [auto|].
  split; (split; [auto|]); (split; [auto|]); (split; [auto|]); (split; [auto|]); intros r c Hr Hc; destruct (Q r c Hr Hc) as (_ & Q1 & Q2).
  - rewrite (at_start p R C 1 M r c (horner [x r c 0%nat; 2 * x r c 1%nat; 3 * x r c 2%nat]) So VM Hr Hc); [cbn [horner]; rewrite <- Q1; ring|]. rewrite (EP 0%nat r c PP Hr Hc). apply derives_curve, derives_horner.
  - cbv zeta in Q2. set (k := (List.length bs - 2)%nat) in *. assert (Ek : (List.length (polys p) - 1)%nat = k) by lia.
    rewrite (end_derives p R C r c 1 (horner [x r c (3 * k)%nat; 2 * x r c (3 * k + 1)%nat; 3 * x r c (3 * k + 2)%nat]) N So VN Hr Hc); [|rewrite Ek, (EP k r c ltac:(lia) Hr Hc); apply derives_curve, derives_horner].
    rewrite Ek. unfold last_break. rewrite last_nth. change (breaks p) with bs. cbn [horner]. rewrite <- Q2. ring.
Qed.
Print Assumptions clamped_spline.
(** The system is square, and always has exactly one solution. *)
Theorem clamped_solvable : forall bs y a b, spaced bs -> (2 <= List.length bs)%nat -> s_rows (clamped_system bs y a b) = (3 * (List.length bs - 1))%nat /\
  exists x, solves (clamped_system bs y a b) x /\ forall x', solves (clamped_system bs y a b) x' -> forall j, (j < s_rows (clamped_system bs y a b))%nat -> x' j == x j.
Proof.
  intros bs y a b Sp L. pose proof (proj1 (clamped_ok bs y (fun _ => 0) a b L)) as N. split; [exact N|]. destruct (clamped_exists bs y a b Sp L) as [x Hx]. exists x. split; [exact Hx|].
  intros x' Hx' j Hj. rewrite N in Hj. apply (clamped_unique bs y a b x' x Sp L); auto.
Qed.
Print Assumptions clamped_solvable.
(** t^2 is the clamped spline through its own samples, as well as the "not-a-sample" one. *)
Definition square (_ : system) (j : nat) : Q := nth j [0; 1; 0; 2; 1; 0] 0.
Example clamped_example : solves (clamped_system [0; 1; 3] (fun i => sampled (row [0; 1; 9]) i 0 0) 0 6) (square (System 0 [] [])) /\
  omap (fun M => Qred (m_at M 0%nat 0%nat)) (obind (CubicClamped square [0; 1; 3] (row [0; 1; 9]) (scalar_mat 0) (scalar_mat 6)) (fun p => tvalue p 2)) = Ok 4.
Proof. split; [|vm_compute; reflexivity]. intros r Hr. cbn in Hr. do 6 (destruct r as [|r]; [vm_compute; reflexivity|]). lia. Qed.
(** Periodic and "not-a-sample" end conditions, given a solution of the system. *)
Theorem free_spline : forall solve bs ys R C periodic, well_sampled bs ys R C 3 ->
  (forall r c, (r < R)%nat -> (c < C)%nat -> let st := free_system bs (fun i => sampled ys i r c) periodic in solves st (solve st)) ->
  exists p, CubicFree solve bs ys periodic = Ok p /\ sound p R C /\ breaks p = bs /\ passes_through p ys R C /\ smooth p R C 0 /\ smooth p R C 1 /\ smooth p R C 2 /\ of_order p R C 4 /\
  (periodic = true -> forall k, k = 1%nat \/ k = 2%nat -> exists M N, EvalDerivative p (first_break p) k = Ok M /\ EvalDerivative p (last_break p) k = Ok N /\ agree R C M N) /\
  (periodic = false -> (3 < List.length bs)%nat -> forall r c, (r < R)%nat -> (c < C)%nat -> joins p r c 3 0 /\ joins p r c 3 (List.length (polys p) - 2)) /\
  (periodic = false -> List.length bs = 3%nat -> of_order p R C 3).
Proof.
  intros solve bs ys R C periodic W S. unfold CubicFree. match goal with |- context [check_input bs ys 3 ?k] => destruct (check_ok bs ys R C 3 k ltac:(lia) W) as (X & XR & XC) end. rewrite X, XR, XC.
  destruct W as (LY & L & _ & _ & _ & Sp). set (x := fun j k => solve (free_system bs (fun i => m_at (sample ys i) j k) periodic)).
  destruct (build_ok bs R C (fun i j k => [m_at (sample ys i) j k; x j k (3 * i)%nat; x j k (3 * i + 1)%nat; x j k (3 * i + 2)%nat]) Sp ltac:(lia)) as (E & So & Lp & Ent). eexists. split; [exact E|]. split; [exact So|]. split; [reflexivity|].
  set (p := Traj bs (map (fun i => Mat R C (fun j k => poly_coefs [m_at (sample ys i) j k; x j k (3 * i)%nat; x j k (3 * i + 1)%nat; x j k (3 * i + 2)%nat])) (seq 0 (List.length bs - 1)))) in *.
  assert (Q : forall r c, (r < R)%nat -> (c < C)%nat -> (forall i, (Datatypes.S i < List.length bs)%nat -> segment_equations bs (fun i => sampled ys i r c) (x r c) i) /\
     let k := (List.length bs - 2)%nat in let dt := nth (List.length bs - 1) bs 0 - nth k bs 0 in
     if periodic then x r c (3 * k)%nat + 2 * dt * x r c (3 * k + 1)%nat + 3 * dt * dt * x r c (3 * k + 2)%nat == x r c 0%nat /\ 2 * x r c (3 * k + 1)%nat + 6 * dt * x r c (3 * k + 2)%nat == 2 * x r c 1%nat
     else if Nat.ltb 3 (List.length bs) then x r c 2%nat == x r c 5%nat /\ x r c (3 * (k - 1) + 2)%nat == x r c (3 * k + 2)%nat else x r c 2%nat == 0 /\ x r c 5%nat == 0).
  { intros r c Hr Hc. apply (free_ok bs (fun i => m_at (sample ys i) r c) (x r c) periodic L). apply (S r c Hr Hc). }
  assert (EP : forall i r c, (i < List.length (polys p))%nat -> (r < R)%nat -> (c < C)%nat -> entry p i r c = poly_coefs [sampled ys i r c; x r c (3 * i)%nat; x r c (3 * i + 1)%nat; x r c (3 * i + 2)%nat]) by (intros i r c Hi _ _; apply Ent; lia).
  destruct (spline_traj p bs R C ys x So eq_refl Sp EP) as (T1 & T2 & T3 & T4 & T5); [intros r c Hr Hc; apply Q; auto|]. do 5 (split; [auto|]). pose proof (polys_pos p R C So) as PP.
  set (k := (List.length bs - 2)%nat) in *. assert (Ek : (List.length (polys p) - 1)%nat = k) by lia.
  split; [|split].
  - intros -> d Hd. destruct (eval_works p R C (first_break p) d So) as (M & VM & MR & MC & _). destruct (eval_works p R C (last_break p) d So) as (N & VN & NR & NC & _). exists M, N. split; [auto|]. split; [auto|].
    do 4 (split; [auto|]). intros r c Hr Hc. destruct (Q r c Hr Hc) as (_ & Q1 & Q2). destruct Hd as [-> | ->].
    + rewrite (at_start p R C 1 M r c (horner [x r c 0%nat; 2 * x r c 1%nat; 3 * x r c 2%nat]) So VM Hr Hc); [|rewrite (EP 0%nat r c PP Hr Hc); apply derives_curve, derives_horner].
      rewrite (end_derives p R C r c 1 (horner [x r c (3 * k)%nat; 2 * x r c (3 * k + 1)%nat; 3 * x r c (3 * k + 2)%nat]) N So VN Hr Hc); [|rewrite Ek, (EP k r c ltac:(lia) Hr Hc); apply derives_curve, derives_horner].
      rewrite Ek. unfold last_break. rewrite last_nth. change (breaks p) with bs. cbn [horner]. rewrite <- Q1. ring.
    + rewrite (at_start p R C 2 M r c (horner [2 * x r c 1%nat; 6 * x r c 2%nat]) So VM Hr Hc); [|rewrite (EP 0%nat r c PP Hr Hc); apply derives_curve, derives_horner].
      rewrite (end_derives p R C r c 2 (horner [2 * x r c (3 * k + 1)%nat; 6 * x r c (3 * k + 2)%nat]) N So VN Hr Hc); [|rewrite Ek, (EP k r c ltac:(lia) Hr Hc); apply derives_curve, derives_horner].
      rewrite Ek. unfold last_break. rewrite last_nth. change (breaks p) with bs. cbn [horner]. rewrite Qmult_0_l, Qplus_0_r. rewrite <- Q2. ring.
  - intros -> N3 r c Hr Hc. destruct (Q r c Hr Hc) as (_ & Q1). cbv zeta in Q1. rewrite (proj2 (Nat.ltb_lt 3 _) N3) in Q1. destruct Q1 as [Q1 Q2].
    assert (D3 : forall a b c d, derives 3 (curve (poly_coefs [a; b; c; d])) (horner [6 * d])).
    { intros a b e d. apply derives_curve. apply (derives_plus 2 1 _ (horner [2 * e; 6 * d])); [apply derives_horner|]. econstructor; [intros y; apply slope_horner|]. constructor. intros y. cbn [dhorner horner]. ring. }
    split; unfold joins.
    + rewrite (EP 0%nat r c ltac:(lia) Hr Hc), (EP 1%nat r c ltac:(lia) Hr Hc). eexists _, _. split; [apply D3|]. split; [apply D3|]. cbn [horner]. change (3 * 0 + 2)%nat with 2%nat. change (3 * 1 + 2)%nat with 5%nat. rewrite Q1. ring.
    + replace (List.length (polys p) - 2)%nat with (k - 1)%nat by lia. replace (Datatypes.S (k - 1)) with k by lia. rewrite (EP (k - 1)%nat r c ltac:(lia) Hr Hc), (EP k r c ltac:(lia) Hr Hc). eexists _, _. split; [apply D3|]. split; [apply D3|]. cbn [horner]. rewrite Q2. ring.
  - intros -> N3 i r c Hi Hr Hc. destruct (Q r c Hr Hc) as (_ & Q1). cbv zeta in Q1. rewrite N3 in Q1. cbn [Nat.ltb Nat.leb] in Q1. destruct Q1 as [Q1 Q2]. rewrite (EP i r c Hi Hr Hc). exists [sampled ys i r c; x r c (3 * i)%nat; x r c (3 * i + 1)%nat]. split; [reflexivity|].
    intros z. destruct (from_coefficients [sampled ys i r c; x r c (3 * i)%nat; x r c (3 * i + 1)%nat; x r c (3 * i + 2)%nat]) as (_ & _ & F). rewrite F. cbn [horner].
    assert (Z : x r c (3 * i + 2)%nat == 0) by (assert (i = 0%nat \/ i = 1%nat) as [-> | ->] by lia; assumption). rewrite Z. ring.
Qed.
Print Assumptions free_spline.
Theorem free_solvable : forall bs y periodic, spaced bs -> (3 <= List.length bs)%nat -> s_rows (free_system bs y periodic) = (3 * (List.length bs - 1))%nat /\
  exists x, solves (free_system bs y periodic) x /\ forall x', solves (free_system bs y periodic) x' -> forall j, (j < s_rows (free_system bs y periodic))%nat -> x' j == x j.
Proof.
  intros bs y periodic Sp L. pose proof (proj1 (free_ok bs y (fun _ => 0) periodic L)) as N. split; [exact N|]. destruct (free_exists bs y periodic Sp L) as [x Hx]. exists x. split; [exact Hx|].
  intros x' Hx' j Hj. rewrite N in Hj. apply (free_unique bs y periodic x' x Sp L); auto.
Qed.
Print Assumptions free_solvable.
Example free_example : solves (free_system [0; 1; 3] (fun i => sampled (row [0; 1; 9]) i 0 0) false) (square (System 0 [] [])) /\
  omap (fun M => Qred (m_at M 0%nat 0%nat)) (obind (CubicFree square [0; 1; 3] (row [0; 1; 9]) false) (fun p => tvalue p 2)) = Ok 4.
Proof. split; [|vm_compute; reflexivity]. intros r Hr. cbn in Hr. do 6 (destruct r as [|r]; [vm_compute; reflexivity|]). lia. Qed.

(** LagrangeInterpolatingPolynomial: one polynomial through all samples. *)
Theorem lagrange_interpolates : forall solve ts ys R C, (2 <= List.length ts)%nat -> List.length ys = List.length ts -> Forall (fun y => m_rows y = R /\ m_cols y = C) ys ->
  (forall i, (S i < List.length ts)%nat -> kEpsilonTime < nth (S i) ts 0 - nth i ts 0) ->
  (forall r c, (r < R)%nat -> (c < C)%nat -> let A := map (fun t => vandermonde_row (List.length ts) 1 (t - nth 0 ts 0)) ts in let b := map (fun y => m_at y r c) ys in solves_dense A (solve A b) b) ->
  exists p, Lagrange solve ts ys = Ok p /\ sound p R C /\ List.length (polys p) = 1%nat /\ of_order p R C (List.length ts) /\
  forall i, (i < List.length ts)%nat -> exists M, tvalue p (nth i ts 0) = Ok M /\ is_matrix M R C (sampled ys i).
Proof.
  intros solve ts ys R C L LY FY Sp SD. pose proof eps_pos as EP. assert (Ri : rising ts) by (intros i Hi; specialize (Sp i Hi); lra).
  assert (XS : m_rows (sample ys 0) = R /\ m_cols (sample ys 0) = C) by (destruct ys as [|y r]; [simpl in LY; lia|]; inversion FY; auto). destruct XS as [XR XC].
  unfold Lagrange. rewrite (proj2 (Nat.ltb_lt 1 (List.length ts)) ltac:(lia)), LY, Nat.eqb_refl. cbn [throw_unless].
  replace (lagrange_times ts) with true.
  2:{ symmetry. clear - Sp. induction ts as [|a [|b r] IH]; [reflexivity|reflexivity|]. cbn [lagrange_times]. rewrite (proj2 (Qltb_true kEpsilonTime (b - a)) (Sp 0%nat ltac:(cbn; lia))). cbn [andb]. apply IH. intros i Hi. apply (Sp (S i)). cbn [List.length] in *. lia. }
  replace (forallb (same_dims (sample ys 0)) ys) with true by (symmetry; apply forallb_forall; intros m Hm; rewrite Forall_forall in FY; destruct (FY m Hm) as [A B]; unfold same_dims; rewrite XR, XC, A, B, !Nat.eqb_refl; reflexivity). cbn [andb throw_unless].
  cbv zeta. rewrite XR, XC. set (A := map (fun t => vandermonde_row (List.length ts) 1 (t - nth 0 ts 0)) ts). set (x := fun i j => solve A (map (fun y => m_at y i j) ys)).
  assert (F : nth 0 ts 0 < nth (List.length ts - 1) ts 0) by (apply rising_lt; [auto|lia]).
  assert (F2 : kEpsilonTime <= nth (List.length ts - 1) ts 0 - nth 0 ts 0).
  { pose proof (Sp 0%nat ltac:(lia)). destruct (Nat.eq_dec (List.length ts) 2) as [E|N]; [rewrite E; change (2 - 1)%nat with 1%nat; lra|]. assert (nth 1 ts 0 < nth (List.length ts - 1) ts 0) by (apply rising_lt; [auto|lia]). lra. }
  destruct (make_ok [Mat R C (fun i j => poly_coefs (x i j))] [nth 0 ts 0; nth (List.length ts - 1) ts 0] R C) as [E So].
  { intros [|i] Hi; cbn in *; [auto|lia]. } { reflexivity. } { discriminate. }
  { intros [|i] m Em; cbn in Em; [|destruct i; discriminate]. injection Em as <-. split; [reflexivity|]. split; [reflexivity|]. intros r c _ _. cbn [m_at]. destruct (from_coefficients (x r c)) as (G & U & _). auto. }
  exists (Traj [nth 0 ts 0; nth (List.length ts - 1) ts 0] [Mat R C (fun i j => poly_coefs (x i j))]). split; [exact E|]. split; [exact So|]. split; [reflexivity|].
  split.
  - intros [|i] r c Hi Hr Hc; cbn in Hi; [|lia]. unfold entry. cbn [polys nth m_at]. exists (x r c). destruct (SD r c Hr Hc) as (Lx & _). fold A in Lx. fold (x r c) in Lx. rewrite map_length in Lx. split; [lia|]. intros z. apply from_coefficients.
  - intros i Hi. destruct (value_total _ R C (nth i ts 0) So) as (M & V & MR & MC). exists M. split; [auto|]. split; [auto|]. split; [auto|]. intros r c Hr Hc. rewrite (value_at _ R C _ M 0%nat So V) with (r := r) (c := c); auto.
    + unfold entry. cbn [polys breaks nth m_at]. destruct (from_coefficients (x r c)) as (_ & _ & X). rewrite X. destruct (SD r c Hr Hc) as (Lx & LA & Hx). fold A in Lx, LA, Hx. fold (x r c) in Lx, Hx. rewrite map_length in Lx, LA. specialize (Hx i ltac:(rewrite map_length; lia)).
      unfold A in Hx. rewrite (nth_indep (map (fun t => vandermonde_row (List.length ts) 1 (t - nth 0 ts 0)) ts) [] ((fun t => vandermonde_row (List.length ts) 1 (t - nth 0 ts 0)) 0)) in Hx by (rewrite map_length; auto).
      rewrite (map_nth (fun t => vandermonde_row (List.length ts) 1 (t - nth 0 ts 0))) in Hx. replace (List.length ts) with (List.length (x r c)) in Hx by lia. rewrite vandermonde_dot in Hx.
      rewrite (nth_indep (map (fun y => m_at y r c) ys) 0 (m_at (Mat 0 0 (fun _ _ => 0)) r c)) in Hx by (rewrite map_length; lia). rewrite (map_nth (fun y => m_at y r c)) in Hx. unfold sampled. rewrite <- Hx. ring.
    + assert (nth 0 ts 0 <= nth i ts 0) by (apply rising_le; [auto|lia]). assert (nth i ts 0 <= nth (List.length ts - 1) ts 0) by (apply rising_le; [auto|lia]). split; [cbn; lia|]. cbn [breaks nth]. split; [auto|].
      destruct (Qlt_le_dec (nth i ts 0) (nth (List.length ts - 1) ts 0)); [left; auto|right]. split; [reflexivity|lra].
Qed.
Print Assumptions lagrange_interpolates.
Theorem lagrange_solvable : forall ts b, List.length b = List.length ts -> rising ts -> exists x, solves_dense (map (fun t => vandermonde_row (List.length ts) 1 (t - nth 0 ts 0)) ts) x b.
Proof. intros ts b L Ri. apply vandermonde_exists; auto. Qed.
Print Assumptions lagrange_solvable.
Example lagrange_example : solves_dense (map (fun t => vandermonde_row 3 1 (t - 0)) [0; 1; 3]) [0; 0; 1] [0; 1; 9] /\
  omap (fun M => Qred (m_at M 0%nat 0%nat)) (obind (Lagrange (fun _ _ => [0; 0; 1]) [0; 1; 3] (row [0; 1; 9])) (fun p => tvalue p 2)) = Ok 4.
Proof. split; [|vm_compute; reflexivity]. split; [reflexivity|]. split; [reflexivity|]. intros [|[|[|i]]] Hi; cbn in Hi; try lia; vm_compute; reflexivity. Qed.

(** Samples that do not fit, or times too close together, are refused, whatever the constructor. *)
Theorem samples_rejected : forall bs ys, ~ (exists R C, well_sampled bs ys R C 2) -> ZeroOrderHold bs ys = Throw /\ FirstOrderHold bs ys = Throw /\
  (forall yds, CubicHermite bs ys yds = Throw) /\ (forall z, CubicShapePreserving bs ys z = Throw) /\ (forall solve ds de, CubicClamped solve bs ys ds de = Throw) /\ (forall solve pe, CubicFree solve bs ys pe = Throw).
Proof.
  intros bs ys H. assert (K : forall A n (k : outcome A), (2 <= n)%nat -> check_input bs ys n k = Throw).
  { intros A n k Hn. destruct (check_input bs ys n k) as [a| |] eqn:E; [|reflexivity|].
    - exfalso. apply H. exists (m_rows (sample ys 0)), (m_cols (sample ys 0)). apply check_inv in E; [|lia]. eapply less_sampled; [|apply E]. lia.
    - exfalso. destruct (check_input bs ys n (Ok tt)) as [u| |] eqn:E2.
      + apply H. exists (m_rows (sample ys 0)), (m_cols (sample ys 0)). apply check_inv in E2; [|lia]. eapply less_sampled; [|apply E2]. lia.
      + unfold check_input in E, E2. repeat match type of E with throw_unless ?b _ = _ => destruct b; cbn [throw_unless] in E, E2 | context [match ys with _ => _ end] => destruct ys end; try discriminate.
      + apply (check_no_ub bs ys n (Ok tt)) in E2; auto; [lia|discriminate]. }
  repeat split; intros; apply K; try lia. destruct z; lia.
Qed.
Print Assumptions samples_rejected.
Example samples_rejected_example : ZeroOrderHold [0; 1; 1] (row [1; 2; 3]) = Throw /\ FirstOrderHold [0; 1] (row [1; 2; 3]) = Throw /\ CubicShapePreserving [0; 1] (row [1; 2]) false = Throw.
Proof. repeat split; vm_compute; reflexivity. Qed.
