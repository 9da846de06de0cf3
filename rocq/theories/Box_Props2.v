(** Intersection of bounding boxes when only the other box is turned. *)
From Coq Require Import Reals List Arith Lia Lra Psatz Bool.
From Verif Require Import Base Matrix_Model Matrix_Spec Rotation_Model Rotation_Spec Rotation_Proofs RollPitchYaw_Props Box_Model Box_Spec Box_Proofs Box_Props.
Import ListNotations.
Local Open Scope R_scope.

(** A rotation matrix whose entries across the diagonal have the same size. *)
Lemma scaled_bound : forall k x h, - h <= x <= h -> - (Rabs k * h) <= k * x <= Rabs k * h.
Proof. intros k x h B. unfold Rabs. destruct (Rcase_abs k); nra. Qed.
Lemma tests_sound : forall (t ha hb a u : vec3) (r : mat),
  (- vx ha <= vx a <= vx ha /\ - vy ha <= vy a <= vy ha /\ - vz ha <= vz a <= vz ha) ->
  (- vx hb <= vx u <= vx hb /\ - vy hb <= vy u <= vy hb /\ - vz hb <= vz u <= vz hb) ->
  t = vsub a (mat_vec r u) ->
  (forall i j, (i < 3)%nat -> (j < 3)%nat -> Rabs (r i j) = Rabs (r j i)) ->
  (forall i j, (i < 3)%nat -> (j < 3)%nat -> r 0%nat i * r 0%nat j + r 1%nat i * r 1%nat j + r 2%nat i * r 2%nat j = delta i j) ->
  (forall i j, (i < 3)%nat -> (j < 3)%nat -> r (next i) (next j) * r (next (next i)) (next (next j)) - r (next i) (next (next j)) * r (next (next i)) (next j) = r i j) ->
  separating_tests t ha hb r = true.
Proof.
  intros t ha hb a u r (A1 & A2 & A3) (U1 & U2 & U3) -> Sy Or Co.
  assert (K : 0 < kepsilon) by (unfold kepsilon; lra).
  pose proof (Sy 0 1 ltac:(lia) ltac:(lia))%nat as S01. pose proof (Sy 0 2 ltac:(lia) ltac:(lia))%nat as S02. pose proof (Sy 1 2 ltac:(lia) ltac:(lia))%nat as S12.
  pose proof (Or 0 0 ltac:(lia) ltac:(lia))%nat as O00. pose proof (Or 0 1 ltac:(lia) ltac:(lia))%nat as O01. pose proof (Or 0 2 ltac:(lia) ltac:(lia))%nat as O02.
  pose proof (Or 1 1 ltac:(lia) ltac:(lia))%nat as O11. pose proof (Or 1 2 ltac:(lia) ltac:(lia))%nat as O12. pose proof (Or 2 2 ltac:(lia) ltac:(lia))%nat as O22.
  pose proof (Co 0 0 ltac:(lia) ltac:(lia))%nat as C00. pose proof (Co 0 1 ltac:(lia) ltac:(lia))%nat as C01. pose proof (Co 0 2 ltac:(lia) ltac:(lia))%nat as C02.
  pose proof (Co 1 0 ltac:(lia) ltac:(lia))%nat as C10. pose proof (Co 1 1 ltac:(lia) ltac:(lia))%nat as C11. pose proof (Co 1 2 ltac:(lia) ltac:(lia))%nat as C12.
  pose proof (Co 2 0 ltac:(lia) ltac:(lia))%nat as C20. pose proof (Co 2 1 ltac:(lia) ltac:(lia))%nat as C21. pose proof (Co 2 2 ltac:(lia) ltac:(lia))%nat as C22.
  clear Sy Or Co. unfold delta in *. cbn [Nat.eq_dec nat_rec nat_rect next] in *.
  unfold separating_tests. cbn [forallb next coord]. unfold vdot, column, mat_vec, vsub. cbn [vx vy vz].
  destruct ha as [p1 p2 p3], hb as [q1 q2 q3], a as [a1 a2 a3], u as [u1 u2 u3]. cbn [vx vy vz] in *.
  set (r00 := r 0%nat 0%nat) in *. set (r01 := r 0%nat 1%nat) in *. set (r02 := r 0%nat 2%nat) in *.
  set (r10 := r 1%nat 0%nat) in *. set (r11 := r 1%nat 1%nat) in *. set (r12 := r 1%nat 2%nat) in *.
  set (r20 := r 2%nat 0%nat) in *. set (r21 := r 2%nat 1%nat) in *. set (r22 := r 2%nat 2%nat) in *. clearbody r00 r01 r02 r10 r11 r12 r20 r21 r22. clear r.
  rewrite !andb_true_iff, !not_above_iff.
  assert (E : forall k x h, - h <= x <= h -> - (Rabs k * h) <= k * x <= Rabs k * h /\ 0 <= kepsilon * h).
  { intros k x h B. split; [apply scaled_bound; exact B|]. assert (0 <= h) by lra. nra. }
  assert (P1 : 0 <= kepsilon * p1) by nra. assert (P2 : 0 <= kepsilon * p2) by nra. assert (P3 : 0 <= kepsilon * p3) by nra.
  assert (Q1 : 0 <= kepsilon * q1) by nra. assert (Q2 : 0 <= kepsilon * q2) by nra. assert (Q3 : 0 <= kepsilon * q3) by nra.
  clear K. set (e := kepsilon) in *. clearbody e. clear E.
  assert (T1 : forall k1 k2 k3, Rabs (a1 - (k1 * u1 + k2 * u2 + k3 * u3)) <= p1 + (Rabs k1 * q1 + Rabs k2 * q2 + Rabs k3 * q3)).
  { intros k1 k2 k3. pose proof (scaled_bound k1 _ _ U1). pose proof (scaled_bound k2 _ _ U2). pose proof (scaled_bound k3 _ _ U3). apply Rabs_le. lra. }
  assert (T2 : forall k1 k2 k3, Rabs (a2 - (k1 * u1 + k2 * u2 + k3 * u3)) <= p2 + (Rabs k1 * q1 + Rabs k2 * q2 + Rabs k3 * q3)).
  { intros k1 k2 k3. pose proof (scaled_bound k1 _ _ U1). pose proof (scaled_bound k2 _ _ U2). pose proof (scaled_bound k3 _ _ U3). apply Rabs_le. lra. }
  assert (T3 : forall k1 k2 k3, Rabs (a3 - (k1 * u1 + k2 * u2 + k3 * u3)) <= p3 + (Rabs k1 * q1 + Rabs k2 * q2 + Rabs k3 * q3)).
  { intros k1 k2 k3. pose proof (scaled_bound k1 _ _ U1). pose proof (scaled_bound k2 _ _ U2). pose proof (scaled_bound k3 _ _ U3). apply Rabs_le. lra. }
  assert (G : forall x k1 k2 k3 l1 l2 l3, x = k1 * a1 + k2 * a2 + k3 * a3 + (l1 * u1 + l2 * u2 + l3 * u3) ->
    Rabs x <= Rabs k1 * p1 + Rabs k2 * p2 + Rabs k3 * p3 + (Rabs l1 * q1 + Rabs l2 * q2 + Rabs l3 * q3)).
  { intros x k1 k2 k3 l1 l2 l3 ->. pose proof (scaled_bound l1 _ _ U1). pose proof (scaled_bound l2 _ _ U2). pose proof (scaled_bound l3 _ _ U3).
    pose proof (scaled_bound k1 _ _ A1). pose proof (scaled_bound k2 _ _ A2). pose proof (scaled_bound k3 _ _ A3). apply Rabs_le. lra. }
  assert (Z : Rabs 0 = 0) by apply Rabs_R0. assert (O : Rabs (-1) = 1) by (unfold Rabs; destruct (Rcase_abs (-1)); lra).
  split; [split|]; repeat apply conj; try exact I; try reflexivity.
  - pose proof (T1 r00 r01 r02). rewrite S01, S02 in H. lra.
  - pose proof (T2 r10 r11 r12). rewrite <- S01, S12 in H. lra.
  - pose proof (T3 r20 r21 r22). rewrite <- S02, <- S12 in H. lra.
  - pose proof (G (r00 * (a1 - (r00 * u1 + r01 * u2 + r02 * u3)) + r10 * (a2 - (r10 * u1 + r11 * u2 + r12 * u3)) + r20 * (a3 - (r20 * u1 + r21 * u2 + r22 * u3))) r00 r10 r20 (-1) 0 0) as H. rewrite Z, O in H. lapply H; [lra|].
    transitivity (r00 * a1 + r10 * a2 + r20 * a3 - ((r00 * r00 + r10 * r10 + r20 * r20) * u1 + (r00 * r01 + r10 * r11 + r20 * r21) * u2 + (r00 * r02 + r10 * r12 + r20 * r22) * u3)); [ring|]. rewrite O00, O01, O02. ring.
  - pose proof (G (r01 * (a1 - (r00 * u1 + r01 * u2 + r02 * u3)) + r11 * (a2 - (r10 * u1 + r11 * u2 + r12 * u3)) + r21 * (a3 - (r20 * u1 + r21 * u2 + r22 * u3))) r01 r11 r21 0 (-1) 0) as H. rewrite Z, O in H. lapply H; [lra|].
    transitivity (r01 * a1 + r11 * a2 + r21 * a3 - ((r00 * r01 + r10 * r11 + r20 * r21) * u1 + (r01 * r01 + r11 * r11 + r21 * r21) * u2 + (r01 * r02 + r11 * r12 + r21 * r22) * u3)); [ring|]. rewrite O01, O11, O12. ring.
  - pose proof (G (r02 * (a1 - (r00 * u1 + r01 * u2 + r02 * u3)) + r12 * (a2 - (r10 * u1 + r11 * u2 + r12 * u3)) + r22 * (a3 - (r20 * u1 + r21 * u2 + r22 * u3))) r02 r12 r22 0 0 (-1)) as H. rewrite Z, O in H. lapply H; [lra|].
    transitivity (r02 * a1 + r12 * a2 + r22 * a3 - ((r00 * r02 + r10 * r12 + r20 * r22) * u1 + (r01 * r02 + r11 * r12 + r21 * r22) * u2 + (r02 * r02 + r12 * r12 + r22 * r22) * u3)); [ring|]. rewrite O02, O12, O22. ring.
  - pose proof (G ((a3 - (r20 * u1 + r21 * u2 + r22 * u3)) * r10 - (a2 - (r10 * u1 + r11 * u2 + r12 * u3)) * r20) 0 (- r20) r10 0 (- r02) r01) as H. rewrite Z, !Rabs_Ropp in H. lapply H; [clear -P1 P2 P3 Q1 Q2 Q3; lra|]. rewrite <- C01, <- C02. ring.
  - pose proof (G ((a3 - (r20 * u1 + r21 * u2 + r22 * u3)) * r11 - (a2 - (r10 * u1 + r11 * u2 + r12 * u3)) * r21) 0 (- r21) r11 r02 0 (- r00)) as H. rewrite Z, !Rabs_Ropp in H. lapply H; [clear -P1 P2 P3 Q1 Q2 Q3; lra|]. rewrite <- C02, <- C00. ring.
  - pose proof (G ((a3 - (r20 * u1 + r21 * u2 + r22 * u3)) * r12 - (a2 - (r10 * u1 + r11 * u2 + r12 * u3)) * r22) 0 (- r22) r12 (- r01) r00 0) as H. rewrite Z, !Rabs_Ropp in H. lapply H; [clear -P1 P2 P3 Q1 Q2 Q3; lra|]. rewrite <- C00, <- C01. ring.
  - pose proof (G ((a1 - (r00 * u1 + r01 * u2 + r02 * u3)) * r20 - (a3 - (r20 * u1 + r21 * u2 + r22 * u3)) * r00) r20 0 (- r00) 0 (- r12) r11) as H. rewrite Z, !Rabs_Ropp in H. lapply H; [clear -P1 P2 P3 Q1 Q2 Q3; lra|]. rewrite <- C11, <- C12. ring.
  - pose proof (G ((a1 - (r00 * u1 + r01 * u2 + r02 * u3)) * r21 - (a3 - (r20 * u1 + r21 * u2 + r22 * u3)) * r01) r21 0 (- r01) r12 0 (- r10)) as H. rewrite Z, !Rabs_Ropp in H. lapply H; [clear -P1 P2 P3 Q1 Q2 Q3; lra|]. rewrite <- C12, <- C10. ring.
  - pose proof (G ((a1 - (r00 * u1 + r01 * u2 + r02 * u3)) * r22 - (a3 - (r20 * u1 + r21 * u2 + r22 * u3)) * r02) r22 0 (- r02) (- r11) r10 0) as H. rewrite Z, !Rabs_Ropp in H. lapply H; [clear -P1 P2 P3 Q1 Q2 Q3; lra|]. rewrite <- C10, <- C11. ring.
  - pose proof (G ((a2 - (r10 * u1 + r11 * u2 + r12 * u3)) * r00 - (a1 - (r00 * u1 + r01 * u2 + r02 * u3)) * r10) (- r10) r00 0 0 (- r22) r21) as H. rewrite Z, !Rabs_Ropp in H. lapply H; [clear -P1 P2 P3 Q1 Q2 Q3; lra|]. rewrite <- C21, <- C22. ring.
  - pose proof (G ((a2 - (r10 * u1 + r11 * u2 + r12 * u3)) * r01 - (a1 - (r00 * u1 + r01 * u2 + r02 * u3)) * r11) (- r11) r01 0 r22 0 (- r20)) as H. rewrite Z, !Rabs_Ropp in H. lapply H; [clear -P1 P2 P3 Q1 Q2 Q3; lra|]. rewrite <- C22, <- C20. ring.
  - pose proof (G ((a2 - (r10 * u1 + r11 * u2 + r12 * u3)) * r02 - (a1 - (r00 * u1 + r01 * u2 + r02 * u3)) * r12) (- r12) r02 0 (- r21) r20 0) as H. rewrite Z, !Rabs_Ropp in H. lapply H; [clear -P1 P2 P3 Q1 Q2 Q3; lra|]. rewrite <- C20, <- C21. ring.
Qed.

(** A box turned about at most one axis of its parent. *)
Definition one_turn (o : rpy) : Prop := (roll o = 0 /\ pitch o = 0) \/ (roll o = 0 /\ yaw o = 0) \/ (pitch o = 0 /\ yaw o = 0).
(** Two boxes that share a point are never reported as disjoint if the first is not turned and the
    other is turned about one axis only. *)
Theorem overlaps_one_turn_partial : forall a b p, made a -> made b -> b_orientation a = RPY 0 0 0 -> one_turn (b_orientation b) ->
  documented_region a 0 p -> documented_region b 0 p -> overlaps a b = Ok Contained \/ overlaps a b = Ok Intersected.
Proof.
  intros a b p Ma Mb Oa Ob (a1 & a2 & a3 & A1 & A2 & A3 & Ea) (u1 & u2 & u3 & U1 & U2 & U3 & Eb).
  destruct (box_contained_iff a b Mb) as (c & E & _). unfold overlaps. rewrite E. cbn [obind]. destruct c; [left; reflexivity|right].
  unfold is_box_intersected. destruct (inverse_flip (b_orientation a)) as (w & -> & W). cbn [omap]. rewrite Oa in *.
  set (r := mul 3 w (to_matrix (b_orientation b))).
  assert (R : forall i j, (i < 3)%nat -> (j < 3)%nat -> r i j = to_matrix (b_orientation b) i j).
  { intros i j Li Lj. unfold r, mul. cbn [sum]. rewrite !W by lia. unfold flip. set (m := to_matrix (b_orientation b)). unfold to_matrix. cbn [roll pitch yaw]. rewrite sin_0, cos_0.
    destruct i as [|[|[|i]]]; try lia; cbn [mat3]; ring. }
  rewrite (tests_sound _ (half a) (half b) (V3 a1 a2 a3) (V3 u1 u2 u3) r); [reflexivity| | | | | |].
  - unfold half. cbn [vx vy vz]. lra.
  - unfold half. cbn [vx vy vz]. lra.
  - rewrite Ea in Eb. clear Ea. revert Eb. unfold at_, turned. cbn [f1 f2 f3]. rewrite !map_matrix. unfold mat_vec. rewrite !R by lia. set (m := to_matrix (b_orientation b)). clearbody m. cbn [vx vy vz].
    unfold to_matrix. cbn [roll pitch yaw mat3]. rewrite sin_0, cos_0. intro Eb. injection Eb as E1 E2 E3. unfold vsub. cbn [vx vy vz]. apply vec_eq; cbn [vx vy vz]; lra.
  - intros i j Li Lj. rewrite !R by lia. unfold to_matrix. destruct Ob as [(-> & ->)|[(-> & ->)|(-> & ->)]]; rewrite sin_0, cos_0;
    destruct i as [|[|[|i]]]; destruct j as [|[|[|j]]]; try lia; cbn [mat3]; try reflexivity; match goal with |- Rabs ?x = Rabs ?y => first [f_equal; ring|transitivity (Rabs (- y)); [f_equal; ring|apply Rabs_Ropp]] end.
  - intros i j Li Lj. rewrite !R by lia. unfold to_matrix, delta. pose proof (sin2_cos2 (roll (b_orientation b))) as X1. pose proof (sin2_cos2 (pitch (b_orientation b))) as X2. pose proof (sin2_cos2 (yaw (b_orientation b))) as X3. unfold Rsqr in *.
    destruct Ob as [(-> & ->)|[(-> & ->)|(-> & ->)]]; rewrite sin_0, cos_0 in *;
    destruct i as [|[|[|i]]]; destruct j as [|[|[|j]]]; try lia; cbn [mat3 Nat.eq_dec nat_rec nat_rect]; cbn; nra.
  - intros i j Li Lj. rewrite !R by (unfold next; destruct i as [|[|[|?]]], j as [|[|[|?]]]; lia). unfold to_matrix. pose proof (sin2_cos2 (roll (b_orientation b))) as X1. pose proof (sin2_cos2 (pitch (b_orientation b))) as X2. pose proof (sin2_cos2 (yaw (b_orientation b))) as X3. unfold Rsqr in *.
    destruct Ob as [(-> & ->)|[(-> & ->)|(-> & ->)]]; rewrite sin_0, cos_0 in *;
    destruct i as [|[|[|i]]]; destruct j as [|[|[|j]]]; try lia; cbn [mat3 next]; nra.
Qed.
Print Assumptions overlaps_one_turn_partial.

(** Finding: along the axes of the first box the code measures the other one with the columns of the
    rotation where the cited algorithm has its rows; boxes sharing a point are missed although the
    first is not turned, whichever way the orientation of the other is read. *)
Definition post : box := Box (V3 0 0 0) (V3 1 1 1) (RPY 0 0 0) 0.
Definition tipped (y z : R) : box := Box (V3 0 y z) (V3 10 1 1) (RPY (PI / 2) 0 (PI / 2)) 0.
Lemma tipped_disjoint : forall y z, (y = 4 /\ z = 0) \/ (y = 0 /\ z = 4) -> is_box_contained post (tipped y z) = Ok false -> overlaps post (tipped y z) = Ok Disjointed.
Proof.
  intros y z D C. unfold overlaps. rewrite C. cbn [obind]. unfold is_box_intersected. destruct (inverse_flip (b_orientation post)) as (w & -> & W). cbn [omap].
  set (r := mul 3 w (to_matrix (b_orientation (tipped y z)))).
  assert (R : forall i j, (i < 3)%nat -> (j < 3)%nat -> r i j = match i, j with O, S (S O) | S O, O | S (S O), S O => 1 | _, _ => 0 end).
  { intros i j Li Lj. unfold r, mul. cbn [sum]. rewrite !W by lia. unfold flip, to_matrix, post, tipped. cbn [b_orientation roll pitch yaw]. rewrite sin_0, cos_0, sin_PI2, cos_PI2.
    destruct i as [|[|[|i]]]; destruct j as [|[|[|j]]]; try lia; cbn [mat3]; ring. }
  destruct (separating_tests _ _ _ r) eqn:T; [|reflexivity]. exfalso. unfold separating_tests in T. apply andb_true_iff in T. destruct T as (T & _). apply andb_true_iff in T. destruct T as (T & T').
  cbn [forallb] in T, T'. rewrite !andb_true_iff, !not_above_iff in T, T'. destruct T as (_ & T1 & _). destruct T' as (_ & T2 & _).
  unfold vdot, column in T1, T2. rewrite !R in T1, T2 by lia. unfold half, vsub, post, tipped, coord, kepsilon in T1, T2. cbn [b_position b_size vx vy vz] in T1, T2. rewrite !Rabs_R0, !Rabs_R1 in T1, T2.
  destruct D as [(-> & ->)|(-> & ->)]; [rewrite (Rabs_right (4 - 0)) in T1 by lra; lra|rewrite (Rabs_right (0 * _ + _ + _)) in T2 by lra; lra].
Qed.
Theorem overlap_columns_refuted :
  (exists a b p, made a /\ made b /\ b_orientation a = RPY 0 0 0 /\ documented_region a 0 p /\ documented_region b 0 p /\ overlaps a b = Ok Disjointed) /\
  (exists a b p, made a /\ made b /\ b_orientation a = RPY 0 0 0 /\ region a 0 p /\ region b 0 p /\ overlaps a b = Ok Disjointed).
Proof.
  assert (MP : made post) by (apply make_made; cbn; lra). assert (MT : forall y z, made (tipped y z)) by (intros; apply make_made; cbn; lra).
  assert (RB : forall y z p, region (tipped y z) 0 p <-> - (10 / 2 + 0) <= vz p - z <= 10 / 2 + 0 /\ - (1 / 2 + 0) <= vx p <= 1 / 2 + 0 /\ - (1 / 2 + 0) <= vy p - y <= 1 / 2 + 0).
  { intros y z p. rewrite region_bounds. cbv zeta. unfold tipped, to_matrix, mat_vec, vsub. cbn [vx vy vz b_orientation b_position b_size mat3 roll pitch yaw]. rewrite sin_0, cos_0, sin_PI2, cos_PI2. lra. }
  assert (RA : forall tol p, region post tol p <-> - (1 / 2 + tol) <= vx p <= 1 / 2 + tol /\ - (1 / 2 + tol) <= vy p <= 1 / 2 + tol /\ - (1 / 2 + tol) <= vz p <= 1 / 2 + tol).
  { intros tol p. rewrite region_bounds. cbv zeta. unfold post, to_matrix, mat_vec, vsub. cbn [vx vy vz b_orientation b_position b_size mat3 roll pitch yaw]. rewrite sin_0, cos_0. lra. }
  assert (NC : forall y z, is_box_contained post (tipped y z) = Ok false).
  { intros y z. destruct (box_contained_iff post (tipped y z) (MT y z)) as (c & -> & H). destruct c; [|reflexivity]. exfalso.
    destruct (Rle_dec 0 z); [pose proof (proj1 H eq_refl (V3 0 y (z + 4))) as Q|pose proof (proj1 H eq_refl (V3 0 y (z - 4))) as Q]; rewrite RA, RB in Q; cbn in Q; lra. }
  split.
  - exists post, (tipped 4 0), (V3 0 0 0). do 2 (split; [auto|]). split; [reflexivity|]. split; [|split; [|apply tipped_disjoint; auto]].
    + exists 0, 0, 0. unfold post. cbn [b_position b_size b_orientation vx vy vz]. repeat split; try lra. unfold at_. cbn [vx vy vz]. apply vec_eq; cbn [vx vy vz]; ring.
    + exists (-4), 0, 0. unfold tipped. cbn [b_position b_size b_orientation vx vy vz]. repeat split; try lra. unfold at_, turned. rewrite !map_matrix. unfold mat_vec, to_matrix. cbn [f1 f2 f3 vx vy vz mat3 roll pitch yaw]. rewrite sin_0, cos_0, sin_PI2, cos_PI2. apply vec_eq; cbn [vx vy vz]; ring.
  - exists post, (tipped 0 4), (V3 0 0 0). do 2 (split; [auto|]). split; [reflexivity|]. split; [|split; [|apply tipped_disjoint; auto]]; [apply RA|apply RB]; cbn [vx vy vz]; lra.
Qed.
Print Assumptions overlap_columns_refuted.

(** A cube and a bar with yaw 45 degrees that share a point. *)
Example one_turn_ex : made post /\ made (long (PI / 4) 0 0) /\ b_orientation post = RPY 0 0 0 /\ one_turn (b_orientation (long (PI / 4) 0 0)) /\
  documented_region post 0 (V3 0 0 0) /\ documented_region (long (PI / 4) 0 0) 0 (V3 0 0 0).
Proof.
  split; [apply make_made; cbn; lra|]. split; [apply long_made|]. split; [reflexivity|]. split; [left; split; reflexivity|].
  split; exists 0, 0, 0; unfold post, long; cbn [b_position b_size b_orientation vx vy vz]; repeat split; try lra; unfold at_; cbn [vx vy vz]; apply vec_eq; cbn [vx vy vz]; ring.
Qed.
