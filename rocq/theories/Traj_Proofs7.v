(** Shape preservation, splines, Lagrange interpolation. *)
From Coq Require Import List QArith Qabs ZArith NArith Bool Arith Lia Lqa.
From Verif Require Import Base Poly_Model Poly_Spec Poly_Proofs Poly_Proofs2 Poly_Proofs3 Poly_Props Traj_Model Traj_Spec Traj_Proofs Traj_Proofs2 Traj_Proofs3 Traj_Proofs4 Traj_Proofs6.
Import ListNotations.

Lemma sign_pos v tol : 0 <= tol -> (sign v tol = 1%Z <-> tol < v).
Proof. intros T. unfold sign. destruct (Qltb v (- tol)) eqn:A; [apply Qltb_true in A; split; [discriminate|lra]|]. destruct (Qltb tol v) eqn:B; [apply Qltb_true in B; tauto|apply Qltb_false in B; split; [discriminate|lra]]. Qed.
Lemma sign_neg v tol : 0 <= tol -> (sign v tol = (-1)%Z <-> v < - tol).
Proof. intros T. unfold sign. destruct (Qltb v (- tol)) eqn:A; [apply Qltb_true in A; tauto|]. apply Qltb_false in A. destruct (Qltb tol v); split; try discriminate; lra. Qed.
Lemma slope_eps_pos : 0 < kSlopeEpsilon. Proof. reflexivity. Qed.

Lemma end_tame dt0 dt1 s0 s1 : 0 < dt0 -> 0 < dt1 -> kSlopeEpsilon < Qabs s0 -> tame s0 (end_slope dt0 dt1 s0 s1).
Proof.
  intros H0 H1 Big. pose proof slope_eps_pos as EP. assert (E0 : 0 <= kSlopeEpsilon) by lra. unfold end_slope. cbv zeta. set (d := ((2 * dt0 + dt1) * s0 - dt0 * s1) / (dt0 + dt1)).
  assert (Ed : d * (dt0 + dt1) == (2 * dt0 + dt1) * s0 - dt0 * s1) by (unfold d; field; lra). clearbody d.
  destruct (Z.eqb_spec (sign d kSlopeEpsilon) (sign s0 kSlopeEpsilon)) as [Sd|]; cbn [negb]; [|apply tame_zero].
  destruct (Qlt_le_dec 0 s0) as [P|P].
  - assert (kSlopeEpsilon < s0) by (rewrite Qabs_pos in Big; lra). rewrite (proj2 (sign_pos s0 _ E0)) in Sd by auto. apply sign_pos in Sd; auto.
    destruct (Z.eqb_spec (sign s0 kSlopeEpsilon) (sign s1 kSlopeEpsilon)) as [S1|S1]; cbn [negb andb].
    + rewrite (proj2 (sign_pos s0 _ E0)) in S1 by auto. symmetry in S1. apply sign_pos in S1; auto. split; intros; [|lra]. split; [lra|]. apply Qnot_lt_le; intros X; nra.
    + destruct (Qltb (Qabs (3 * s0)) (Qabs d)) eqn:B; [split; intros; lra|]. apply Qltb_false in B. rewrite !Qabs_pos in B by lra. split; intros; lra.
  - assert (s0 < - kSlopeEpsilon) by (rewrite Qabs_neg in Big; lra). rewrite (proj2 (sign_neg s0 _ E0)) in Sd by auto. apply sign_neg in Sd; auto.
    destruct (Z.eqb_spec (sign s0 kSlopeEpsilon) (sign s1 kSlopeEpsilon)) as [S1|S1]; cbn [negb andb].
    + rewrite (proj2 (sign_neg s0 _ E0)) in S1 by auto. symmetry in S1. apply sign_neg in S1; auto. split; intros; [lra|]. split; [|lra]. apply Qnot_lt_le; intros X; nra.
    + destruct (Qltb (Qabs (3 * s0)) (Qabs d)) eqn:B; [split; intros; lra|]. apply Qltb_false in B. rewrite !Qabs_neg in B by lra. split; intros; lra.
Qed.

(** A cubic with tame slopes does not turn. *)
Lemma hermite_diff dt y0 y1 a b u v : 0 < dt ->
  horner (cubic_at dt y0 y1 a b) v - horner (cubic_at dt y0 y1 a b) u ==
  (v - u) * (a * (1 - 2 * (u / dt + v / dt) + (u / dt * (u / dt) + u / dt * (v / dt) + v / dt * (v / dt)))
           + b * (u / dt * (u / dt) + u / dt * (v / dt) + v / dt * (v / dt) - (u / dt + v / dt))
           + (y1 - y0) / dt * (3 * (u / dt + v / dt) - 2 * (u / dt * (u / dt) + u / dt * (v / dt) + v / dt * (v / dt)))).
Proof. intros H. unfold cubic_at. cbn [horner]. field. lra. Qed.
Lemma box a b s A B D : 0 <= s -> 0 <= a <= 3 * s -> 0 <= b <= 3 * s -> 0 <= D -> 0 <= 3 * A + D -> 0 <= 3 * B + D -> 0 <= 3 * A + 3 * B + D -> 0 <= a * A + b * B + s * D.
Proof.
  intros Hs Ha Hb H1 H2 H3 H4. assert (XA : 0 <= a * A \/ 3 * s * A <= a * A) by (destruct (Qlt_le_dec A 0); [right|left]; nra). assert (XB : 0 <= b * B \/ 3 * s * B <= b * B) by (destruct (Qlt_le_dec B 0); [right|left]; nra).
  assert (0 <= s * D) by nra. assert (0 <= s * (3 * A + D)) by nra. assert (0 <= s * (3 * B + D)) by nra. assert (0 <= s * (3 * A + 3 * B + D)) by nra. destruct XA, XB; lra.
Qed.
Lemma vertices p q : 0 <= p <= 1 -> 0 <= q <= 1 ->
  let A := 1 - 2 * (p + q) + (p * p + p * q + q * q) in let B := p * p + p * q + q * q - (p + q) in let D := 3 * (p + q) - 2 * (p * p + p * q + q * q) in
  0 <= D /\ 0 <= 3 * A + D /\ 0 <= 3 * B + D /\ 0 <= 3 * A + 3 * B + D.
Proof.
  intros Hp Hq A B D. unfold A, B, D. assert (0 <= p * (3 - 2 * p - q)) by (apply Qmult_le_0_compat; lra). assert (0 <= q * (3 - 2 * q - p)) by (apply Qmult_le_0_compat; lra). split; [lra|].
  assert (0 <= (1 - p) * (1 - p)) by (apply Qmult_le_0_compat; lra). assert (0 <= (1 - q) * (1 - q)) by (apply Qmult_le_0_compat; lra). assert (0 <= (1 - p) * (1 - q)) by (apply Qmult_le_0_compat; lra). split; [lra|].
  assert (0 <= p * p) by (apply Qmult_le_0_compat; lra). assert (0 <= q * q) by (apply Qmult_le_0_compat; lra). assert (0 <= p * q) by (apply Qmult_le_0_compat; lra). split; [lra|].
  assert (Sq : forall z : Q, 0 <= z * z) by (intros z; destruct (Qlt_le_dec z 0); nra). pose proof (Sq (1 - p - q)). pose proof (Sq (q - p)). lra.
Qed.
Lemma frac_range u dt : 0 < dt -> 0 <= u <= dt -> 0 <= u / dt <= 1.
Proof. intros H Hu. assert (E : u / dt * dt == u) by (field; lra). set (p := u / dt) in *. clearbody p. split; apply Qnot_lt_le; intros X; nra. Qed.
Lemma hermite_rises dt y0 y1 a b u v : 0 < dt -> y0 <= y1 -> 0 <= a <= 3 * ((y1 - y0) / dt) -> 0 <= b <= 3 * ((y1 - y0) / dt) -> 0 <= u -> u <= v -> v <= dt ->
  horner (cubic_at dt y0 y1 a b) u <= horner (cubic_at dt y0 y1 a b) v.
Proof.
  intros H Y Ha Hb Hu Huv Hv. pose proof (hermite_diff dt y0 y1 a b u v H) as E. pose proof (frac_range u dt H ltac:(lra)) as Fu. pose proof (frac_range v dt H ltac:(lra)) as Fv.
  destruct (vertices _ _ Fu Fv) as (V1 & V2 & V3 & V4). pose proof (box a b ((y1 - y0) / dt) _ _ _ ltac:(lra) Ha Hb V1 V2 V3 V4) as G. nra.
Qed.
Lemma hermite_falls dt y0 y1 a b u v : 0 < dt -> y1 <= y0 -> 3 * ((y1 - y0) / dt) <= a <= 0 -> 3 * ((y1 - y0) / dt) <= b <= 0 -> 0 <= u -> u <= v -> v <= dt ->
  horner (cubic_at dt y0 y1 a b) v <= horner (cubic_at dt y0 y1 a b) u.
Proof.
  intros H Y Ha Hb Hu Huv Hv. pose proof (hermite_diff dt y0 y1 a b u v H) as E. pose proof (frac_range u dt H ltac:(lra)) as Fu. pose proof (frac_range v dt H ltac:(lra)) as Fv.
  destruct (vertices _ _ Fu Fv) as (V1 & V2 & V3 & V4). pose proof (box (- a) (- b) (- ((y1 - y0) / dt)) _ _ _ ltac:(lra) ltac:(lra) ltac:(lra) V1 V2 V3 V4) as G. nra.
Qed.
Lemma slope_sign y0 y1 dt : 0 < dt -> (y0 <= y1 <-> 0 <= (y1 - y0) / dt) /\ (y1 <= y0 <-> (y1 - y0) / dt <= 0).
Proof. intros H. assert (E : (y1 - y0) / dt * dt == y1 - y0) by (field; lra). set (s := (y1 - y0) / dt) in *. clearbody s. repeat split; intros; apply Qnot_lt_le; intros X; nra. Qed.

(** The slopes of CubicShapePreserving are tame on both sides of every segment. *)
Lemma pchip_tame bs zero y i : spaced bs -> (S i < List.length bs)%nat -> (2 <= List.length bs)%nat -> (zero = false -> (3 <= List.length bs)%nat) ->
  (zero = false -> kSlopeEpsilon < Qabs ((y 1%nat - y 0%nat) / (nth 1 bs 0 - nth 0 bs 0))) ->
  (zero = false -> kSlopeEpsilon < Qabs ((y (List.length bs - 1)%nat - y (List.length bs - 2)%nat) / (nth (List.length bs - 1) bs 0 - nth (List.length bs - 2) bs 0))) ->
  tame ((y (S i) - y i) / (nth (S i) bs 0 - nth i bs 0)) (pchip_slope bs zero y i) /\ tame ((y (S i) - y i) / (nth (S i) bs 0 - nth i bs 0)) (pchip_slope bs zero y (S i)).
Proof.
  intros Sp Hi L2 L3 Z1 Z2. assert (RI := spaced_rising _ Sp). assert (Pd : forall j, (S j < List.length bs)%nat -> 0 < nth (S j) bs 0 - nth j bs 0) by (intros j Hj; specialize (RI j Hj); lra).
  unfold pchip_slope. split.
  - destruct (Nat.eqb_spec i 0) as [->|N0].
    + destruct zero; [apply tame_zero|]. specialize (L3 eq_refl). apply end_tame; auto; apply Pd; lia.
    + destruct (Nat.eqb_spec i (List.length bs - 1)); [lia|]. destruct (inner_tame (nth (S (i - 1)) bs 0 - nth (i - 1) bs 0) (nth (S i) bs 0 - nth i bs 0) ((y (S (i - 1)) - y (i - 1)%nat) / (nth (S (i - 1)) bs 0 - nth (i - 1) bs 0)) ((y (S i) - y i) / (nth (S i) bs 0 - nth i bs 0))) as [_ X]; [apply Pd; lia|apply Pd; lia|exact X].
  - destruct (Nat.eqb_spec (S i) 0); [lia|]. destruct (Nat.eqb_spec (S i) (List.length bs - 1)) as [E|NE].
    + destruct zero; [apply tame_zero|]. specialize (L3 eq_refl). replace (List.length bs - 2)%nat with i in * by lia. rewrite <- E in Z2. replace (S (List.length bs - 3)) with i by lia.
      apply end_tame; [apply Pd; lia| |auto]. specialize (Pd (List.length bs - 3)%nat ltac:(lia)). replace (S (List.length bs - 3)) with i in Pd by lia. exact Pd.
    + replace (S i - 1)%nat with i by lia. destruct (inner_tame (nth (S i) bs 0 - nth i bs 0) (nth (S (S i)) bs 0 - nth (S i) bs 0) ((y (S i) - y i) / (nth (S i) bs 0 - nth i bs 0)) ((y (S (S i)) - y (S i)) / (nth (S (S i)) bs 0 - nth (S i) bs 0))) as [X _]; [apply Pd; lia|apply Pd; lia|exact X].
Qed.

(** Systems of equations. *)
Lemma row_sum_app r x a : forall b, row_sum r (a ++ b) x == row_sum r a x + row_sum r b x.
Proof. induction a as [|[[a0 c0] v0] a IH]; intros b; cbn [app row_sum]; [ring|]. rewrite IH. ring. Qed.
Lemma row_sum_none r x l : Forall (fun t : triplet => fst (fst t) <> r) l -> row_sum r l x == 0.
Proof. induction 1 as [|[[a0 c0] v0] l N F IH]; cbn [row_sum]; [reflexivity|]. cbn in N. destruct (Nat.eqb_spec a0 r); [congruence|]. rewrite IH. ring. Qed.
Lemma rhs_app_l r a : forall b, Forall (fun t : nat * Q => fst t <> r) b -> rhs_at r (a ++ b) = rhs_at r a.
Proof.
  induction a as [|[a0 v0] a IH]; intros b F; cbn [app rhs_at]; [|rewrite IH by auto; reflexivity].
  induction F as [|[b0 w0] b N F IHF]; cbn [rhs_at]; [reflexivity|]. cbn in N. destruct (Nat.eqb_spec b0 r); [congruence|exact IHF].
Qed.
Lemma rhs_app_r r a : Forall (fun t : nat * Q => fst t <> r) a -> forall b, rhs_at r (a ++ b) = rhs_at r b.
Proof. induction 1 as [|[a0 v0] a N F IH]; intros b; cbn [app rhs_at]; [reflexivity|]. cbn in N. destruct (Nat.eqb_spec a0 r); [congruence|apply IH]. Qed.
Definition below (st : system) : Prop := Forall (fun t : triplet => (fst (fst t) < s_rows st)%nat) (s_trips st) /\ Forall (fun t : nat * Q => (fst t < s_rows st)%nat) (s_rhs st).
Lemma solves_grow st k ts bs x : below st -> Forall (fun t : triplet => (s_rows st <= fst (fst t) < s_rows st + k)%nat) ts -> Forall (fun t : nat * Q => (s_rows st <= fst t < s_rows st + k)%nat) bs ->
  below (System (s_rows st + k) (s_trips st ++ ts) (s_rhs st ++ bs)) /\
  (solves (System (s_rows st + k) (s_trips st ++ ts) (s_rhs st ++ bs)) x <-> solves st x /\ forall r, (s_rows st <= r < s_rows st + k)%nat -> row_sum r ts x == rhs_at r bs).
Proof.
  intros [B1 B2] T1 T2. split.
  - split; cbn [s_rows s_trips s_rhs]; apply Forall_app; split; eapply Forall_impl; eauto; cbn; intros; lia.
  - assert (Lo : forall r, (r < s_rows st)%nat -> row_sum r (s_trips st ++ ts) x == row_sum r (s_trips st) x /\ rhs_at r (s_rhs st ++ bs) = rhs_at r (s_rhs st)).
    { intros r Hr. split; [rewrite row_sum_app, (row_sum_none r x ts); [ring|]|apply rhs_app_l]; eapply Forall_impl; eauto; cbn; intros; lia. }
    assert (Hi : forall r, (s_rows st <= r)%nat -> row_sum r (s_trips st ++ ts) x == row_sum r ts x /\ rhs_at r (s_rhs st ++ bs) = rhs_at r bs).
    { intros r Hr. split; [rewrite row_sum_app, (row_sum_none r x (s_trips st)); [ring|]|apply rhs_app_r]; eapply Forall_impl; eauto; cbn; intros; lia. }
    unfold solves. cbn [s_rows s_trips s_rhs]. split.
    + intros H. split; [intros r Hr; destruct (Lo r Hr) as [A <-]; rewrite <- A; apply H; lia|]. intros r Hr. destruct (Hi r ltac:(lia)) as [A <-]. rewrite <- A. apply H. lia.
    + intros [H1 H2] r Hr. destruct (Nat.lt_ge_cases r (s_rows st)) as [L|L]; [destruct (Lo r L) as [-> ->]; auto|destruct (Hi r L) as [-> ->]; apply H2; lia].
Qed.
(** What the rows of segment i say. *)
Definition segment_equations (bs : list Q) (y : nat -> Q) (x : nat -> Q) (i : nat) : Prop :=
  let dt := nth (S i) bs 0 - nth i bs 0 in
  dt * x (3 * i)%nat + dt * dt * x (3 * i + 1)%nat + dt * dt * dt * x (3 * i + 2)%nat == y (S i) - y i /\
  ((S (S i) < List.length bs)%nat ->
    x (3 * i)%nat + 2 * dt * x (3 * i + 1)%nat + 3 * dt * dt * x (3 * i + 2)%nat == x (3 * S i)%nat /\
    2 * x (3 * i + 1)%nat + 6 * dt * x (3 * i + 2)%nat == 2 * x (3 * S i + 1)%nat).
Lemma one_row r (x : nat -> Q) (l : list (nat * Q)) : row_sum r (map (fun cv => trip r (fst cv) (snd cv)) l) x == fold_right (fun cv a => snd cv * x (fst cv) + a) 0 l.
Proof. induction l as [|[c v] l IH]; cbn [map row_sum trip fst snd fold_right]; [reflexivity|]. rewrite Nat.eqb_refl, IH. reflexivity. Qed.
Ltac rows_eq := repeat (first [rewrite Nat.eqb_refl | match goal with |- context [Nat.eqb ?a ?b] => let E := fresh in destruct (Nat.eqb_spec a b) as [E|E]; [exfalso; lia|clear E] end]).
Lemma add_rows bs y x st i : below st -> (S i < List.length bs)%nat ->
  below (add_segment_rows bs y st i) /\ s_rows (add_segment_rows bs y st i) = (s_rows st + (if Nat.eqb i (List.length bs - 2) then 1 else 3))%nat /\
  (solves (add_segment_rows bs y st i) x <-> solves st x /\ segment_equations bs y x i).
Proof.
  intros B Hi. unfold add_segment_rows. cbv zeta. set (dt := nth (S i) bs 0 - nth i bs 0). set (r := s_rows st).
  destruct (Nat.eqb_spec i (List.length bs - 2)) as [E|NE]; cbn [s_rows s_trips s_rhs].
  - destruct (solves_grow st 1 [trip r (3 * i) dt; trip r (3 * i + 1) (dt * dt); trip r (3 * i + 2) (dt * dt * dt)] [(r, y (S i) - y i)] x B) as [B' Sv].
    { repeat constructor; cbn; unfold r; lia. } { repeat constructor; cbn; unfold r; lia. }
    fold r in B', Sv. rewrite <- Nat.add_1_r. split; [exact B'|]. split; [reflexivity|]. rewrite Sv. unfold segment_equations. fold dt. cbv zeta. split; intros [H1 H2]; (split; [exact H1|]).
    + split; [|intros; lia]. specialize (H2 r ltac:(lia)). cbn [row_sum rhs_at trip] in H2. rewrite Nat.eqb_refl in H2. lra.
    + intros r' Hr'. replace r' with r by lia. cbn [row_sum rhs_at trip]. rewrite Nat.eqb_refl. destruct H2 as [H2 _]. lra.
  - replace (S (S (S r))) with (r + 3)%nat by lia. rewrite <- !app_assoc. cbn [app].
    destruct (solves_grow st 3 [trip r (3 * i) dt; trip r (3 * i + 1) (dt * dt); trip r (3 * i + 2) (dt * dt * dt);
       trip (S r) (3 * i) 1; trip (S r) (3 * i + 1) (2 * dt); trip (S r) (3 * i + 2) (3 * dt * dt); trip (S r) (3 * (i + 1)) (-(1));
       trip (S (S r)) (3 * i + 1) 2; trip (S (S r)) (3 * i + 2) (6 * dt); trip (S (S r)) (3 * (i + 1) + 1) (-(2))] [(r, y (S i) - y i)] x B) as [B' Sv].
    { repeat constructor; cbn; unfold r; lia. } { repeat constructor; cbn; unfold r; lia. }
    fold r in B', Sv. split; [exact B'|]. split; [reflexivity|]. rewrite Sv. unfold segment_equations. fold dt. cbv zeta. replace (i + 1)%nat with (S i) by lia. split; intros [H1 H2]; (split; [exact H1|]).
    + pose proof (H2 r ltac:(lia)) as A. pose proof (H2 (S r) ltac:(lia)) as A1. pose proof (H2 (S (S r)) ltac:(lia)) as A2. clear H2. revert A A1 A2. cbn [row_sum rhs_at trip]. rows_eq. intros A A1 A2.
      split; [lra|]. intros _. split; lra.
    + destruct H2 as [A H2]. destruct (H2 ltac:(lia)) as [A1 A2]. intros r' Hr'. assert (X : r' = r \/ r' = S r \/ r' = S (S r)) by lia. destruct X as [->|[->| ->]]; cbn [row_sum rhs_at trip]; rows_eq; lra.
Qed.
Lemma interior_rows bs y x : forall k, (k <= List.length bs - 1)%nat -> let st := fold_left (add_segment_rows bs y) (seq 0 k) (System 0 [] []) in
  below st /\ s_rows st = (if Nat.eqb k (List.length bs - 1) then 3 * k - 2 else 3 * k)%nat /\ (solves st x <-> forall i, (i < k)%nat -> segment_equations bs y x i).
Proof.
  induction k as [|k IH]; intros Hk; cbv zeta.
  - cbn [seq fold_left s_rows]. split; [split; constructor|]. split; [destruct (Nat.eqb 0 (List.length bs - 1)); reflexivity|]. split; [intros _ i Hi; lia|intros _ r Hr; cbn in Hr; lia].
  - rewrite seq_S, fold_left_app. cbn [fold_left Nat.add]. destruct (IH ltac:(lia)) as (B & Rw & Sv). set (st := fold_left (add_segment_rows bs y) (seq 0 k) (System 0 [] [])) in *.
    destruct (add_rows bs y x st k B ltac:(lia)) as (B' & Rw' & Sv'). split; [exact B'|]. split.
    + rewrite Rw', Rw. destruct (Nat.eqb_spec k (List.length bs - 1)), (Nat.eqb_spec k (List.length bs - 2)), (Nat.eqb_spec (S k) (List.length bs - 1)); lia.
    + rewrite Sv', Sv. split.
      * intros [H1 H2] i Hi. destruct (Nat.eq_dec i k) as [->|]; [auto|apply H1; lia].
      * intros H. split; [intros; apply H; lia|apply H; lia].
Qed.
Lemma interior_ok bs y x : (2 <= List.length bs)%nat -> let st := interior_system bs y in
  below st /\ s_rows st = (3 * (List.length bs - 1) - 2)%nat /\ (solves st x <-> forall i, (S i < List.length bs)%nat -> segment_equations bs y x i).
Proof.
  intros L. cbv zeta. unfold interior_system. destruct (interior_rows bs y x (List.length bs - 1) ltac:(lia)) as (B & Rw & Sv). rewrite Nat.eqb_refl in Rw. split; [exact B|]. split; [exact Rw|].
  rewrite Sv. split; intros H i Hi; apply H; lia.
Qed.
Lemma clamped_ok bs y x ds de : (2 <= List.length bs)%nat -> s_rows (clamped_system bs y ds de) = (3 * (List.length bs - 1))%nat /\
  (solves (clamped_system bs y ds de) x <-> (forall i, (S i < List.length bs)%nat -> segment_equations bs y x i) /\ x 0%nat == ds /\
     let k := (List.length bs - 2)%nat in let dt := nth (List.length bs - 1) bs 0 - nth k bs 0 in x (3 * k)%nat + 2 * dt * x (3 * k + 1)%nat + 3 * dt * dt * x (3 * k + 2)%nat == de).
Proof.
  intros L. destruct (interior_ok bs y x L) as (B & Rw & Sv). unfold clamped_system. cbv zeta in *. set (st := interior_system bs y) in *. split; [cbn [s_rows]; lia|].
  set (k := (List.length bs - 2)%nat). set (dt := nth (List.length bs - 1) bs 0 - nth k bs 0). set (r := s_rows st).
  destruct (solves_grow st 2 [trip r 0 1; trip (S r) (3 * k) 1; trip (S r) (3 * k + 1) (2 * dt); trip (S r) (3 * k + 2) (3 * dt * dt)] [(r, ds); (S r, de)] x B) as [_ Sg].
  { repeat constructor; cbn; unfold r; lia. } { repeat constructor; cbn; unfold r; lia. }
  fold r in Sg. rewrite Sg, Sv. split; intros [H1 H2]; (split; [exact H1|]).
  - pose proof (H2 r ltac:(lia)) as A. pose proof (H2 (S r) ltac:(lia)) as A1. clear H2. revert A A1. cbn [row_sum rhs_at trip]. rows_eq. intros A A1. split; lra.
  - destruct H2 as [A A1]. intros r' Hr'. assert (X : r' = r \/ r' = S r) by lia. destruct X as [->| ->]; cbn [row_sum rhs_at trip]; rows_eq; lra.
Qed.
Lemma free_ok bs y x periodic : (3 <= List.length bs)%nat -> s_rows (free_system bs y periodic) = (3 * (List.length bs - 1))%nat /\
  (solves (free_system bs y periodic) x <-> (forall i, (S i < List.length bs)%nat -> segment_equations bs y x i) /\
     let k := (List.length bs - 2)%nat in let dt := nth (List.length bs - 1) bs 0 - nth k bs 0 in
     if periodic then x (3 * k)%nat + 2 * dt * x (3 * k + 1)%nat + 3 * dt * dt * x (3 * k + 2)%nat == x 0%nat /\ 2 * x (3 * k + 1)%nat + 6 * dt * x (3 * k + 2)%nat == 2 * x 1%nat
     else if Nat.ltb 3 (List.length bs) then x 2%nat == x 5%nat /\ x (3 * (k - 1) + 2)%nat == x (3 * k + 2)%nat else x 2%nat == 0 /\ x 5%nat == 0).
Proof.
  intros L. destruct (interior_ok bs y x ltac:(lia)) as (B & Rw & Sv). unfold free_system. cbv zeta in *. set (st := interior_system bs y) in *. split; [cbn [s_rows]; lia|].
  set (k := (List.length bs - 2)%nat). set (dt := nth (List.length bs - 1) bs 0 - nth k bs 0). set (r := s_rows st). replace (List.length bs - 3)%nat with (k - 1)%nat by (unfold k; lia).
  set (ts := if periodic then _ else _). destruct (solves_grow st 2 ts [(r, 0%Q); (S r, 0%Q)] x B) as [_ Sg].
  { unfold ts. destruct periodic; [|destruct (Nat.ltb 3 (List.length bs))]; repeat constructor; cbn; unfold r; lia. } { repeat constructor; cbn; unfold r; lia. }
  fold r in Sg. rewrite Sg, Sv. split; intros [H1 H2]; (split; [exact H1|]).
  - pose proof (H2 r ltac:(lia)) as A. pose proof (H2 (S r) ltac:(lia)) as A1. clear H2. revert A A1. unfold ts. destruct periodic; [|destruct (Nat.ltb 3 (List.length bs))]; cbn [row_sum rhs_at trip]; rows_eq; cbn [Nat.add]; intros A A1; split; lra.
  - revert H2. unfold ts. destruct periodic; [|destruct (Nat.ltb 3 (List.length bs))]; intros [A A1] r' Hr'; (assert (X : r' = r \/ r' = S r) by lia); destruct X as [->| ->]; cbn [row_sum rhs_at trip]; rows_eq; cbn [Nat.add] in *; lra.
Qed.

(** Vandermonde rows. *)
Lemma vandermonde_dot x l : forall a, dot (vandermonde_row (List.length l) a x) l == a * horner l x.
Proof. induction l as [|c l IH]; intros a; cbn [List.length vandermonde_row dot horner]; [ring|]. rewrite IH. ring. Qed.
