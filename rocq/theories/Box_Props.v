(** Bounding boxes. *)
From Coq Require Import Reals List Arith Lia Lra Psatz Bool.
From Verif Require Import Base Matrix_Model Matrix_Spec Rotation_Model Rotation_Spec Rotation_Proofs RollPitchYaw_Props Box_Model Box_Spec Box_Proofs.
Import ListNotations.
Local Open Scope R_scope.

(** A box the constructor has made. *)
Definition made (b : box) : Prop := exists p s o t, make_box p s o t = Ok b.
(** The region of a box: its axes are turned by the inverse of its orientation. *)
Definition region (b : box) (tol : R) (p : vec3) : Prop := in_box (b_position b) (turned (rpy_unmap (b_orientation b))) (b_size b) tol p.
(** The region the documentation describes ("Orientation of the box in the Inertial-frame"). *)
Definition documented_region (b : box) (tol : R) (p : vec3) : Prop := in_box (b_position b) (turned (rpy_map (b_orientation b))) (b_size b) tol p.

(** The constructor takes every box without negative sizes and tolerance as it is. *)
Theorem make_box_accepts : forall p s o t,
  (0 <= t /\ 0 <= vx s /\ 0 <= vy s /\ 0 <= vz s /\ make_box p s o t = Ok (Box p s o t)) \/
  ((t < 0 \/ vx s < 0 \/ vy s < 0 \/ vz s < 0) /\ make_box p s o t = Throw).
Proof.
  intros p s o t. unfold make_box, Rleb.
  destruct (Rle_dec 0 t) as [A|A]; [destruct (Rle_dec 0 (vx s)) as [B|B]; [destruct (Rle_dec 0 (vy s)) as [C|C]; [destruct (Rle_dec 0 (vz s)) as [D|D]|]|]|]; cbn;
  [left; auto|right; split; [lra|reflexivity]..].
Qed.
Print Assumptions make_box_accepts.
Lemma made_sizes : forall b, made b -> 0 <= b_tolerance b /\ 0 <= vx (b_size b) /\ 0 <= vy (b_size b) /\ 0 <= vz (b_size b).
Proof. intros b (p & s & o & t & E). destruct (make_box_accepts p s o t) as [(A & B & C & D & E')|(_ & E')]; rewrite E' in E; [injection E as <-; cbn; auto|discriminate]. Qed.
Lemma make_made : forall p s o t, 0 <= t -> 0 <= vx s -> 0 <= vy s -> 0 <= vz s -> made (Box p s o t).
Proof. intros p s o t A B C D. exists p, s, o, t. destruct (make_box_accepts p s o t) as [(_ & _ & _ & _ & E)|([F|[F|[F|F]]] & _)]; try lra. exact E. Qed.

Lemma contains_bounds : forall b p, contains b p = true <->
  let q := mat_vec (to_matrix (b_orientation b)) (vsub p (b_position b)) in
  - (vx (b_size b) / 2 + b_tolerance b) <= vx q <= vx (b_size b) / 2 + b_tolerance b /\
  - (vy (b_size b) / 2 + b_tolerance b) <= vy q <= vy (b_size b) / 2 + b_tolerance b /\
  - (vz (b_size b) / 2 + b_tolerance b) <= vz q <= vz (b_size b) / 2 + b_tolerance b.
Proof. intros b p. cbv zeta. unfold contains. rewrite !andb_true_iff, !Rleb_iff. unfold half. cbn [vx vy vz]. lra. Qed.
Lemma region_bounds : forall b tol p, region b tol p <->
  let q := mat_vec (to_matrix (b_orientation b)) (vsub p (b_position b)) in
  - (vx (b_size b) / 2 + tol) <= vx q <= vx (b_size b) / 2 + tol /\
  - (vy (b_size b) / 2 + tol) <= vy q <= vy (b_size b) / 2 + tol /\
  - (vz (b_size b) / 2 + tol) <= vz q <= vz (b_size b) / 2 + tol.
Proof.
  intros b tol p. cbv zeta. unfold region, in_box. split.
  - intros (u1 & u2 & u3 & A & B & C & ->). rewrite at_unmap, vsub_vadd, rows_orthonormal. cbn [vx vy vz]. auto.
  - intros (A & B & C). set (q := mat_vec (to_matrix (b_orientation b)) (vsub p (b_position b))) in *. exists (vx q), (vy q), (vz q). repeat split; try tauto.
    rewrite at_unmap. replace (V3 (vx q) (vy q) (vz q)) with q by (destruct q; reflexivity). unfold q. rewrite columns_orthonormal, vadd_vsub. reflexivity.
Qed.
(** Contains() is membership in the box grown by the tolerance. *)
Theorem box_contains_iff : forall b p, contains b p = true <-> region b (b_tolerance b) p.
Proof. intros b p. rewrite contains_bounds, region_bounds. reflexivity. Qed.
Print Assumptions box_contains_iff.

(** ** Vertices *)
Lemma combine_affine : forall m c l w, List.length w = List.length l ->
  combine_at w (map (fun v => vadd (mat_vec m v) c) l) = V3 (vx (mat_vec m (combine_at w l)) + sum_of w * vx c) (vy (mat_vec m (combine_at w l)) + sum_of w * vy c) (vz (mat_vec m (combine_at w l)) + sum_of w * vz c).
Proof.
  intros m c l. induction l as [|v l IH]; intros [|k w] L; try discriminate L.
  - cbn. unfold zero3. apply vec_eq; cbn; ring.
  - injection L as L. cbn [map combine_at]. rewrite (IH w L). cbn [sum_of fold_right]. fold (sum_of w). unfold vadd, mat_vec. cbn [vx vy vz]. apply vec_eq; cbn [vx vy vz]; ring.
Qed.
Lemma combine_linear : forall a b c k l w, List.length w = List.length l ->
  forall hi, (forall v, In v l -> a * vx v + b * vy v + c * vz v + k <= hi) -> (forall x, In x w -> 0 <= x) ->
  a * vx (combine_at w l) + b * vy (combine_at w l) + c * vz (combine_at w l) + sum_of w * k <= sum_of w * hi.
Proof.
  intros a b c k l. induction l as [|v l IH]; intros [|x w] L hi A P; try discriminate L.
  - cbn. lra.
  - injection L as L. cbn [combine_at sum_of fold_right]. fold (sum_of w). cbn [vx vy vz]. pose proof (IH w L hi (fun v H => A v (or_intror H)) (fun x H => P x (or_intror H))) as I. pose proof (A v (or_introl eq_refl)). pose proof (P x (or_introl eq_refl)). nra.
Qed.
Lemma hull_below : forall a b c k l p hi, hull l p -> (forall v, In v l -> a * vx v + b * vy v + c * vz v + k <= hi) -> a * vx p + b * vy p + c * vz p + k <= hi.
Proof. intros a b c k l p hi (w & L & P & S1 & ->) A. pose proof (combine_linear a b c k l w L hi A P) as H. rewrite S1 in H. lra. Qed.
Lemma hull_region : forall b tol l p, (forall v, In v l -> region b tol v) -> hull l p -> region b tol p.
Proof.
  intros b tol l p A H. apply region_bounds. cbv zeta. set (m := to_matrix (b_orientation b)). set (c := b_position b).
  assert (B : forall v, In v l -> let q := mat_vec m (vsub v c) in - (vx (b_size b) / 2 + tol) <= vx q <= vx (b_size b) / 2 + tol /\
    - (vy (b_size b) / 2 + tol) <= vy q <= vy (b_size b) / 2 + tol /\ - (vz (b_size b) / 2 + tol) <= vz q <= vz (b_size b) / 2 + tol) by (intros v I; apply region_bounds, A, I).
  cbv zeta in B. unfold mat_vec, vsub in *. cbn [vx vy vz] in *. clearbody m c.
  assert (T : forall i hi, (forall v, In v l -> m i 0%nat * (vx v - vx c) + m i 1%nat * (vy v - vy c) + m i 2%nat * (vz v - vz c) <= hi) ->
    m i 0%nat * (vx p - vx c) + m i 1%nat * (vy p - vy c) + m i 2%nat * (vz p - vz c) <= hi).
  { intros i hi G. pose proof (hull_below (m i 0%nat) (m i 1%nat) (m i 2%nat) (- (m i 0%nat * vx c + m i 1%nat * vy c + m i 2%nat * vz c)) l p hi H) as Q.
    cut (m i 0%nat * vx p + m i 1%nat * vy p + m i 2%nat * vz p + - (m i 0%nat * vx c + m i 1%nat * vy c + m i 2%nat * vz c) <= hi); [lra|]. apply Q. intros v I. specialize (G v I). lra. }
  assert (T' : forall i lo, (forall v, In v l -> lo <= m i 0%nat * (vx v - vx c) + m i 1%nat * (vy v - vy c) + m i 2%nat * (vz v - vz c)) ->
    lo <= m i 0%nat * (vx p - vx c) + m i 1%nat * (vy p - vy c) + m i 2%nat * (vz p - vz c)).
  { intros i lo G. pose proof (hull_below (- m i 0%nat) (- m i 1%nat) (- m i 2%nat) (m i 0%nat * vx c + m i 1%nat * vy c + m i 2%nat * vz c) l p (- lo) H) as Q.
    cut (- m i 0%nat * vx p + - m i 1%nat * vy p + - m i 2%nat * vz p + (m i 0%nat * vx c + m i 1%nat * vy c + m i 2%nat * vz c) <= - lo); [lra|]. apply Q. intros v I. specialize (G v I). lra. }
  repeat split; first [apply T|apply T']; intros v I; destruct (B v I) as (X & Y & Z); tauto.
Qed.
Lemma fraction : forall u h, 0 <= h -> - (h / 2) <= u <= h / 2 -> exists a, 0 <= a <= 1 /\ u = (a * (h / 2) + (1 - a) * - (h / 2)).
Proof.
  intros u h P B. destruct (Req_dec h 0) as [->|N]; [exists 0; lra|]. exists (u / h + 1 / 2). assert (X : u = u / h * h) by (field; exact N). split; [|rewrite X at 1; field; exact N].
  set (d := u / h) in *. assert (0 < h) by lra. split; apply Rmult_le_reg_r with h; try assumption; lra.
Qed.
(** get_vertices() always returns; the box is the convex hull of the eight vertices. *)
Theorem box_vertices_hull : forall b, made b -> exists vs, get_vertices b = Ok vs /\ List.length vs = 8%nat /\ forall p, region b 0 p <-> hull vs p.
Proof.
  intros b M. destruct (made_sizes b M) as (_ & PX & PY & PZ). rewrite vertices_value. eexists. split; [reflexivity|]. split; [reflexivity|]. intro p. split.
  - intros (u1 & u2 & u3 & A & B & C & ->). rewrite at_unmap. rewrite !Rplus_0_r in *.
    destruct (fraction u1 _ PX A) as (a & Ba & Ea). destruct (fraction u2 _ PY B) as (c & Bc & Ec). destruct (fraction u3 _ PZ C) as (d & Bd & Ed).
    exists [a * c * d; (1 - a) * c * d; a * (1 - c) * d; a * c * (1 - d); (1 - a) * (1 - c) * d; a * (1 - c) * (1 - d); (1 - a) * c * (1 - d); (1 - a) * (1 - c) * (1 - d)].
    split; [reflexivity|]. split; [|split].
    + intros k I. cbn in I. repeat destruct I as [<-|I]; try contradiction; repeat apply Rmult_le_pos; lra.
    + cbn. ring.
    + rewrite combine_affine by reflexivity. set (m := flip (b_orientation b)). unfold vadd. cbn [sum_of fold_right]. unfold half. rewrite Ea, Ec, Ed. cbn [corners combine_at vx vy vz zero3].
      clear. set (h1 := vx (b_size b) / 2). set (h2 := vy (b_size b) / 2). set (h3 := vz (b_size b) / 2). clearbody h1 h2 h3 m. unfold mat_vec, zero3. cbn [vx vy vz]. apply vec_eq; cbn [vx vy vz]; ring.
  - apply hull_region. intros v I. apply in_map_iff in I. destruct I as (u & <- & I). exists (vx u), (vy u), (vz u). rewrite at_unmap. rewrite !Rplus_0_r.
    assert (EU : V3 (vx u) (vy u) (vz u) = u) by (destruct u; reflexivity). rewrite EU. unfold half in I. cbn in I.
    repeat destruct I as [<-|I]; try contradiction; cbn [vx vy vz]; repeat split; lra.
Qed.
Print Assumptions box_vertices_hull.
Lemma hull_vertex : forall l v, In v l -> hull l v.
Proof.
  induction l as [|x l IH]; intros v []; [subst x|].
  - exists (1 :: repeat 0 (List.length l)). assert (Z : forall l : list vec3, combine_at (repeat 0 (List.length l)) l = zero3 /\ sum_of (repeat 0 (List.length l)) = 0).
    { induction l0 as [|y l0 (I1 & I2)]; [split; reflexivity|]. cbn [List.length repeat combine_at sum_of fold_right]. fold (sum_of (repeat 0 (List.length l0))). rewrite I1, I2. split; [apply vec_eq; cbn; ring|ring]. }
    destruct (Z l) as (Z1 & Z2). split; [cbn; rewrite repeat_length; reflexivity|]. split; [|split].
    + intros k [<-|I]; [lra|]. apply repeat_spec in I. lra.
    + cbn [sum_of fold_right]. fold (sum_of (repeat 0 (List.length l))). rewrite Z2. ring.
    + cbn [combine_at]. rewrite Z1. apply vec_eq; cbn; ring.
  - destruct (IH v H) as (w & L & P & S1 & E). exists (0 :: w). split; [cbn; lia|]. split; [|split].
    + intros k [<-|I]; [lra|auto].
    + cbn [sum_of fold_right]. fold (sum_of w). rewrite S1. ring.
    + cbn [combine_at]. rewrite <- E. apply vec_eq; cbn; ring.
Qed.
(** IsBoxContained(): every point of the other box is in this one, grown by its tolerance. *)
Theorem box_contained_iff : forall a b, made b -> exists r, is_box_contained a b = Ok r /\ (r = true <-> forall p, region b 0 p -> region a (b_tolerance a) p).
Proof.
  intros a b M. destruct (box_vertices_hull b M) as (vs & E & _ & H). unfold is_box_contained. rewrite E. cbn [omap]. eexists. split; [reflexivity|]. rewrite forallb_forall. split.
  - intros A p P. apply H in P. revert P. apply hull_region. intros v I. apply box_contains_iff, A, I.
  - intros A v I. apply box_contains_iff, A, H, hull_vertex, I.
Qed.
Print Assumptions box_contained_iff.
Theorem overlaps_contained_iff : forall a b, made b -> (overlaps a b = Ok Contained <-> forall p, region b 0 p -> region a (b_tolerance a) p).
Proof.
  intros a b M. destruct (box_contained_iff a b M) as (r & E & H). unfold overlaps. rewrite E. cbn [obind]. destruct r.
  - split; [intros _; apply H; reflexivity|reflexivity].
  - unfold is_box_intersected. destruct (inverse_flip (b_orientation a)) as (w & -> & _). cbn [omap]. split; [|intro A; apply H in A; discriminate].
    destruct (separating_tests _ _ _ _); discriminate.
Qed.
Print Assumptions overlaps_contained_iff.

(** ** Intersection *)
(** The code leaves the offset in the inertial frame, so its answer is right only when the axes of
    both boxes are the inertial ones, up to sign. *)
Definition aligned (b : box) : Prop := forall i j, (i < 3)%nat -> (j < 3)%nat -> i <> j -> times (rot_z (yaw (b_orientation b))) (times (rot_y (pitch (b_orientation b))) (rot_x (roll (b_orientation b)))) i j = 0.
Definition growth (b : box) : R := (vx (b_size b) + vy (b_size b) + vz (b_size b)) / 2000000.
Lemma aligned_diagonal : forall b, aligned b -> let m := to_matrix (b_orientation b) in
  (forall i j, (i < 3)%nat -> (j < 3)%nat -> i <> j -> m i j = 0) /\ (forall i, (i < 3)%nat -> m i i * m i i = 1).
Proof.
  intros b A. cbv zeta. assert (Z : forall i j, (i < 3)%nat -> (j < 3)%nat -> i <> j -> to_matrix (b_orientation b) i j = 0).
  { intros i j Li Lj N. rewrite (RollPitchYaw_Props.rpy_matrix_product _ i j Li Lj). apply A; assumption. }
  split; [exact Z|]. intros i Li. pose proof (rows_dot (b_orientation b) i i Li Li) as H. cbv zeta in H. destruct (Nat.eq_dec i i); [|congruence].
  destruct i as [|[|[|i]]]; try lia; rewrite <- H; [rewrite (Z 0 1)%nat, (Z 0 2)%nat by lia|rewrite (Z 1 0)%nat, (Z 1 2)%nat by lia|rewrite (Z 2 0)%nat, (Z 2 1)%nat by lia]; ring.
Qed.
Lemma sign_abs : forall x, x * x = 1 -> Rabs x = 1.
Proof. intros x H. unfold Rabs. destruct (Rcase_abs x); nra. Qed.
Lemma sign_bounds : forall d x h, d * d = 1 -> (- h <= d * x <= h <-> - h <= x <= h).
Proof. intros d x h H. assert (d = 1 \/ d = -1) as [->| ->] by (destruct (Rle_dec 0 d); [left|right]; nra); lra. Qed.
Lemma aligned_region : forall b tol p, aligned b -> (region b tol p <->
  - (vx (b_size b) / 2 + tol) <= vx p - vx (b_position b) <= vx (b_size b) / 2 + tol /\
  - (vy (b_size b) / 2 + tol) <= vy p - vy (b_position b) <= vy (b_size b) / 2 + tol /\
  - (vz (b_size b) / 2 + tol) <= vz p - vz (b_position b) <= vz (b_size b) / 2 + tol).
Proof.
  intros b tol p A. destruct (aligned_diagonal b A) as (Z & O). rewrite region_bounds. cbv zeta. unfold mat_vec, vsub. cbn [vx vy vz]. set (m := to_matrix (b_orientation b)) in *.
  rewrite (Z 0 1)%nat, (Z 0 2)%nat, (Z 1 0)%nat, (Z 1 2)%nat, (Z 2 0)%nat, (Z 2 1)%nat by lia. rewrite !Rmult_0_l, !Rplus_0_r, !Rplus_0_l. rewrite !sign_bounds by (apply O; lia). reflexivity.
Qed.
Lemma separating_diagonal : forall t ha hb r, (forall i j, (i < 3)%nat -> (j < 3)%nat -> i <> j -> r i j = 0) -> (forall i, (i < 3)%nat -> Rabs (r i i) = 1) ->
  0 <= vx ha -> 0 <= vy ha -> 0 <= vz ha -> 0 <= vx hb -> 0 <= vy hb -> 0 <= vz hb ->
  (Rabs (vx t) <= vx ha + vx hb -> Rabs (vy t) <= vy ha + vy hb -> Rabs (vz t) <= vz ha + vz hb -> separating_tests t ha hb r = true) /\
  (separating_tests t ha hb r = true -> let g := kepsilon * (vx hb + vy hb + vz hb) in Rabs (vx t) <= vx ha + vx hb + g /\ Rabs (vy t) <= vy ha + vy hb + g /\ Rabs (vz t) <= vz ha + vz hb + g).
Proof.
  intros t ha hb r Z O A1 A2 A3 B1 B2 B3. unfold separating_tests. cbn [forallb next coord]. unfold vdot, column. cbn [vx vy vz].
  rewrite (Z 0 1)%nat, (Z 0 2)%nat, (Z 1 0)%nat, (Z 1 2)%nat, (Z 2 0)%nat, (Z 2 1)%nat by lia.
  rewrite !Rmult_0_l, !Rmult_0_r, ?Rminus_0_r, ?Rplus_0_r, ?Rplus_0_l, ?Rminus_0_l, ?Rabs_Ropp, !Rabs_mult, !Rabs_R0, (O 0%nat), (O 1%nat), (O 2%nat) by lia. rewrite !Rmult_1_l || rewrite !Rmult_1_r. rewrite ?Rmult_1_r, ?Rmult_1_l, ?Rminus_0_r, ?Rabs_R0.
  assert (E : 0 < kepsilon < 1) by (unfold kepsilon; lra). set (e := kepsilon) in *. clearbody e. rewrite !andb_true_iff, !not_above_iff. split.
  - intros C1 C2 C3. repeat split; rewrite ?Rminus_0_r, ?Rabs_R0; nra.
  - intros (((C1 & C2 & C3 & _) & _) & _). cbv zeta. repeat split; nra.
Qed.
Theorem overlaps_aligned_partial : forall a b, made a -> made b -> aligned a -> aligned b -> exists r, overlaps a b = Ok r /\
  (forall p, region a 0 p -> region b 0 p -> r <> Disjointed) /\
  (r <> Disjointed -> exists p, region a (b_tolerance a + growth b) p /\ region b 0 p).
Proof.
  intros a b Ma Mb Aa Ab. destruct (made_sizes a Ma) as (PT & PX & PY & PZ). destruct (made_sizes b Mb) as (PT' & PX' & PY' & PZ').
  assert (G : 0 <= growth b) by (unfold growth; lra).
  destruct (box_contained_iff a b Mb) as (c & E & H). unfold overlaps. rewrite E. cbn [obind]. destruct c.
  - exists Contained. split; [reflexivity|]. split; [discriminate|]. intros _. exists (b_position b).
    assert (C : region b 0 (b_position b)) by (apply aligned_region; [exact Ab|]; rewrite !Rminus_eq_0 || (unfold Rminus; rewrite !Rplus_opp_r); repeat split; lra). split; [|exact C].
    pose proof (proj1 H eq_refl _ C) as Q. apply aligned_region in Q; [|exact Aa]. apply aligned_region; [exact Aa|]. lra.
  - unfold is_box_intersected. destruct (inverse_flip (b_orientation a)) as (w & -> & W). cbn [omap]. eexists. split; [reflexivity|].
    destruct (aligned_diagonal a Aa) as (Za & Oa). destruct (aligned_diagonal b Ab) as (Zb & Ob). cbv zeta in *.
    assert (Ew : forall i j, (i < 3)%nat -> (j < 3)%nat -> w i j = to_matrix (b_orientation a) j i) by (intros i j Li Lj; apply W; assumption).
    set (ma := to_matrix (b_orientation a)) in *. set (mb := to_matrix (b_orientation b)) in *. set (r := mul 3 w mb).
    assert (R0 : forall i j, (i < 3)%nat -> (j < 3)%nat -> r i j = ma i i * (if Nat.eq_dec i j then mb i i else 0)).
    { intros i j Li Lj. unfold r, mul. cbn [sum]. rewrite !Ew by lia. destruct i as [|[|[|i]]]; try lia; rewrite ?(Za 0 1)%nat, ?(Za 0 2)%nat, ?(Za 1 0)%nat, ?(Za 1 2)%nat, ?(Za 2 0)%nat, ?(Za 2 1)%nat by lia;
      destruct j as [|[|[|j]]]; try lia; cbn [Nat.eq_dec]; rewrite ?(Zb 0 1)%nat, ?(Zb 0 2)%nat, ?(Zb 1 0)%nat, ?(Zb 1 2)%nat, ?(Zb 2 0)%nat, ?(Zb 2 1)%nat by lia; cbn; ring. }
    destruct (separating_diagonal (vsub (b_position b) (b_position a)) (half a) (half b) r) as (S1 & S2); try (unfold half; cbn [vx vy vz]; lra).
    { intros i j Li Lj N. rewrite R0 by assumption. destruct (Nat.eq_dec i j); [contradiction|ring]. }
    { intros i Li. rewrite R0 by assumption. destruct (Nat.eq_dec i i); [|congruence]. rewrite Rabs_mult, !sign_abs by auto. ring. }
    assert (EG : kepsilon * (vx (half b) + vy (half b) + vz (half b)) = growth b) by (unfold kepsilon, half, growth; cbn [vx vy vz]; field). cbv zeta in S2. rewrite EG in S2. unfold vsub, half in S1, S2. cbn [vx vy vz] in S1, S2.
    split.
    + intros p Pa Pb. apply aligned_region in Pa; [|exact Aa]. apply aligned_region in Pb; [|exact Ab]. unfold vsub, half. cbn [vx vy vz] in *. rewrite S1; [discriminate|apply Rabs_le; lra..].
    + intro N. destruct (separating_tests _ _ _ r) eqn:T; [|congruence]. clear N. destruct (S2 eq_refl) as (C1 & C2 & C3). clear S1 S2 T R0 r.
      assert (I : forall x y h k, 0 <= h -> 0 <= k -> Rabs (y - x) <= h / 2 + k / 2 + growth b -> exists z, - (h / 2 + (b_tolerance a + growth b)) <= z - x <= h / 2 + (b_tolerance a + growth b) /\ - (k / 2 + 0) <= z - y <= k / 2 + 0).
      { intros x y h k Ph Pk C. assert (C' : - (h / 2 + k / 2 + growth b) <= y - x <= h / 2 + k / 2 + growth b) by (unfold Rabs in C; destruct (Rcase_abs (y - x)); lra).
        destruct (Rle_dec (y - x) 0); [destruct (Rle_dec (y - x) (- (k / 2))); [exists (y + k / 2)|exists x]|destruct (Rle_dec (y - x) (k / 2)); [exists x|exists (y - k / 2)]]; lra. }
      destruct (I _ _ _ _ PX PX' C1) as (z1 & X1 & Y1). destruct (I _ _ _ _ PY PY' C2) as (z2 & X2 & Y2). destruct (I _ _ _ _ PZ PZ' C3) as (z3 & X3 & Y3).
      exists (V3 z1 z2 z3). split; apply aligned_region; cbn [vx vy vz]; auto.
Qed.
Print Assumptions overlaps_aligned_partial.

(** ** Findings *)
Definition long (yaw_ x y : R) : box := Box (V3 x y 0) (V3 10 1 1) (RPY 0 0 yaw_) 0.
Lemma long_made : forall a x y, made (long a x y).
Proof. intros a x y. apply make_made; cbn; lra. Qed.
Lemma long_region : forall x y tol p, (region (long (PI / 2) x y) tol p <-> - (1 / 2 + tol) <= vx p - x <= 1 / 2 + tol /\ - (10 / 2 + tol) <= vy p - y <= 10 / 2 + tol /\ - (1 / 2 + tol) <= vz p <= 1 / 2 + tol).
Proof.
  intros x y tol p. rewrite region_bounds. cbv zeta. unfold long, to_matrix, mat_vec, vsub. cbn [vx vy vz b_orientation b_position b_size mat3 roll pitch yaw]. rewrite sin_0, cos_0, sin_PI2, cos_PI2. lra.
Qed.
Lemma long_documented : forall x y tol p, documented_region (long (PI / 2) x y) tol p <-> region (long (PI / 2) x y) tol p.
Proof.
  intros x y tol p. rewrite long_region. unfold documented_region, in_box, long. cbn [b_position b_size b_orientation vx vy vz]. unfold turned, at_. rewrite !map_matrix. unfold mat_vec, to_matrix. cbn [f1 f2 f3 vx vy vz mat3 roll pitch yaw]. rewrite sin_0, cos_0, sin_PI2, cos_PI2. split.
  - intros (u1 & u2 & u3 & A & B & C & ->). cbn [vx vy vz]. lra.
  - intros (A & B & C). exists (vy p - y), (x - vx p), (vz p). repeat split; try lra. apply vec_eq; cbn [vx vy vz]; lra.
Qed.
Lemma long_tests : forall x y x' y', exists r, is_box_intersected (long (PI / 2) x y) (long (PI / 2) x' y') = Ok (separating_tests (V3 (x' - x) (y' - y) (0 - 0)) (V3 (10 / 2) (1 / 2) (1 / 2)) (V3 (10 / 2) (1 / 2) (1 / 2)) r) /\ entries_equal r delta.
Proof.
  intros x y x' y'. unfold is_box_intersected. destruct (inverse_flip (b_orientation (long (PI / 2) x y))) as (w & -> & W). eexists. split; [reflexivity|]. intros i j Li Lj. unfold mul. cbn [sum]. rewrite !W by lia.
  unfold flip, to_matrix, long. cbn [b_orientation roll pitch yaw]. rewrite sin_0, cos_0, sin_PI2, cos_PI2. destruct i as [|[|[|i]]]; destruct j as [|[|[|j]]]; try lia; cbn; ring.
Qed.
(** Boxes that share a point reported as disjoint ... *)
Theorem overlap_missed_refuted : exists a b p, made a /\ made b /\ region a 0 p /\ region b 0 p /\ documented_region a 0 p /\ documented_region b 0 p /\ overlaps a b = Ok Disjointed.
Proof.
  exists (long (PI / 2) 0 0), (long (PI / 2) 0 4), (V3 0 2 0). do 2 (split; [apply long_made|]). rewrite !long_documented, !long_region. cbn [vx vy vz]. do 4 (split; [lra|]).
  destruct (box_contained_iff (long (PI / 2) 0 0) (long (PI / 2) 0 4) (long_made _ _ _)) as (c & E & H). unfold overlaps. rewrite E. cbn [obind]. destruct c.
  - exfalso. pose proof (proj1 H eq_refl (V3 0 9 0)) as Q. rewrite !long_region in Q. cbn [vx vy vz long b_tolerance] in Q. lra.
  - destruct (long_tests 0 0 0 4) as (r & -> & D). cbn [omap].
    destruct (separating_diagonal (V3 (0 - 0) (4 - 0) (0 - 0)) (V3 (10 / 2) (1 / 2) (1 / 2)) (V3 (10 / 2) (1 / 2) (1 / 2)) r) as (_ & S2); cbn [vx vy vz]; try lra.
    { intros i j Li Lj N. rewrite D by assumption. unfold delta. destruct (Nat.eq_dec i j); [contradiction|reflexivity]. }
    { intros i Li. rewrite D by assumption. unfold delta. destruct (Nat.eq_dec i i); [apply Rabs_R1|congruence]. }
    destruct (separating_tests _ _ _ _); [|reflexivity]. exfalso. destruct (S2 eq_refl) as (_ & C & _). cbn [vx vy vz] in C. unfold kepsilon, Rabs in C. destruct (Rcase_abs (4 - 0)); lra.
Qed.
Print Assumptions overlap_missed_refuted.
(** ... and boxes three units apart reported as intersecting. *)
Theorem overlap_invented_refuted : exists a b, made a /\ made b /\ (forall p, ~ (region a 1 p /\ region b 1 p)) /\ (forall p, ~ (documented_region a 1 p /\ documented_region b 1 p)) /\ overlaps a b = Ok Intersected.
Proof.
  exists (long (PI / 2) 0 0), (long (PI / 2) 4 0). do 2 (split; [apply long_made|]). split; [intro p; rewrite !long_region; lra|]. split; [intro p; rewrite !long_documented, !long_region; lra|].
  destruct (box_contained_iff (long (PI / 2) 0 0) (long (PI / 2) 4 0) (long_made _ _ _)) as (c & E & H). unfold overlaps. rewrite E. cbn [obind]. destruct c.
  - exfalso. pose proof (proj1 H eq_refl (V3 4 0 0)) as Q. rewrite !long_region in Q. cbn [vx vy vz long b_tolerance] in Q. lra.
  - destruct (long_tests 0 0 4 0) as (r & -> & D). cbn [omap].
    destruct (separating_diagonal (V3 (4 - 0) (0 - 0) (0 - 0)) (V3 (10 / 2) (1 / 2) (1 / 2)) (V3 (10 / 2) (1 / 2) (1 / 2)) r) as (S1 & _); cbn [vx vy vz]; try lra.
    { intros i j Li Lj N. rewrite D by assumption. unfold delta. destruct (Nat.eq_dec i j); [contradiction|reflexivity]. }
    { intros i Li. rewrite D by assumption. unfold delta. destruct (Nat.eq_dec i i); [apply Rabs_R1|congruence]. }
    rewrite S1; [reflexivity|apply Rabs_le; cbn [vx vy vz]; lra..].
Qed.
Print Assumptions overlap_invented_refuted.
(** The orientation is applied backwards: the x axis of a box with yaw 45 degrees points to the right. *)
Theorem box_orientation_refuted : exists b p, made b /\ documented_region b 0 p /\ contains b p = false.
Proof.
  set (k := cos (PI / 4)). assert (K : k * k = 1 / 2) by (unfold k; rewrite cos_PI4; pose proof (sqrt_sqrt 2 ltac:(lra)) as Q; pose proof (sqrt_lt_R0 2 ltac:(lra)); replace (1 / sqrt 2 * (1 / sqrt 2)) with (1 / (sqrt 2 * sqrt 2)) by (field; lra); rewrite Q; reflexivity).
  assert (SK : sin (PI / 4) = k) by (unfold k; rewrite sin_PI4, cos_PI4; reflexivity).
  exists (long (PI / 4) 0 0), (V3 (4 * k) (4 * k) 0). split; [apply long_made|]. split.
  - exists 4, 0, 0. unfold long. cbn [b_position b_size b_orientation vx vy vz]. repeat split; try lra. unfold turned, at_. rewrite !map_matrix. unfold mat_vec, to_matrix. cbn [f1 f2 f3 vx vy vz mat3 roll pitch yaw]. rewrite sin_0, cos_0. fold k. rewrite SK. apply vec_eq; cbn [vx vy vz]; ring.
  - destruct (contains _ _) eqn:C; [|reflexivity]. exfalso. apply contains_bounds in C. cbv zeta in C. unfold long, to_matrix, mat_vec, vsub in C. cbn [vx vy vz b_orientation b_position b_size b_tolerance mat3 roll pitch yaw] in C. rewrite sin_0, cos_0 in C. fold k in C. rewrite SK in C. nra.
Qed.
Print Assumptions box_orientation_refuted.
(** The tolerance, documented to be used for intersections, is not. *)
Theorem box_tolerance_refuted : exists a b p, made a /\ made b /\ aligned a /\ aligned b /\ region a (b_tolerance a) p /\ region b (b_tolerance b) p /\ overlaps a b = Ok Disjointed.
Proof.
  set (a := Box (V3 0 0 0) (V3 1 1 1) (RPY 0 0 0) 1). set (b := Box (V3 2 0 0) (V3 1 1 1) (RPY 0 0 0) 1). exists a, b, (V3 1 0 0).
  assert (AL : forall x, aligned (Box x (V3 1 1 1) (RPY 0 0 0) 1)).
  { intros x i j Li Lj N. unfold times, rot_x, rot_y, rot_z. cbn [b_orientation roll pitch yaw]. rewrite cos_0, sin_0. destruct i as [|[|[|i]]]; destruct j as [|[|[|j]]]; try lia; cbn; ring. }
  assert (MA : made a) by (apply make_made; cbn; lra). assert (MB : made b) by (apply make_made; cbn; lra). do 4 (split; [assumption || apply AL|]).
  split; [apply aligned_region; [apply AL|]; unfold a; cbn [b_position b_size b_tolerance vx vy vz]; lra|]. split; [apply aligned_region; [apply AL|]; unfold b; cbn [b_position b_size b_tolerance vx vy vz]; lra|].
  destruct (overlaps_aligned_partial a b MA MB (AL _) (AL _)) as (r & E & _ & H). destruct r; [exact E| |]; exfalso.
  - clear H. unfold overlaps in E. destruct (box_contained_iff a b MB) as (c & E' & _). rewrite E' in E. cbn [obind] in E. destruct c; [discriminate|].
    unfold is_box_intersected in E. destruct (inverse_flip (b_orientation a)) as (w & EW & W). rewrite EW in E. cbn [omap] in E.
    destruct (separating_diagonal (vsub (b_position b) (b_position a)) (half a) (half b) (mul 3 w (to_matrix (b_orientation b)))) as (_ & S2); try (unfold half, a, b; cbn; lra).
    { intros i j Li Lj N. unfold mul. cbn [sum]. rewrite !W by lia. unfold flip, a, b, to_matrix. cbn [b_orientation roll pitch yaw]. rewrite sin_0, cos_0. destruct i as [|[|[|i]]]; destruct j as [|[|[|j]]]; try lia; cbn; ring. }
    { intros i Li. unfold mul. cbn [sum]. rewrite !W by lia. unfold flip, a, b, to_matrix. cbn [b_orientation roll pitch yaw]. rewrite sin_0, cos_0. destruct i as [|[|[|i]]]; try lia; cbn; match goal with |- Rabs ?t = 1 => replace t with 1 by ring end; apply Rabs_R1. }
    destruct (separating_tests _ _ _ _); [|discriminate]. destruct (S2 eq_refl) as (C & _). unfold vsub, half, kepsilon, a, b in C. cbn [b_position b_size vx vy vz] in C. unfold Rabs in C. destruct (Rcase_abs (2 - 0)); lra.
  - apply (overlaps_contained_iff a b MB) with (p := V3 2.5 0 0) in E.
    + apply aligned_region in E; [|apply AL]. cbn in E. lra.
    + apply aligned_region; [apply AL|]. cbn. lra.
Qed.
Print Assumptions box_tolerance_refuted.

Example box_ex : exists a b, made a /\ made b /\ aligned a /\ aligned b /\ region a 0 (V3 0 0 0) /\ region b 0 (V3 0 0 0).
Proof.
  assert (AL : aligned (Box (V3 0 0 0) (V3 1 2 3) (RPY 0 0 0) 1)).
  { intros i j Li Lj N. unfold times, rot_x, rot_y, rot_z. cbn [b_orientation roll pitch yaw]. rewrite cos_0, sin_0. destruct i as [|[|[|i]]]; destruct j as [|[|[|j]]]; try lia; cbn; ring. }
  assert (M : made (Box (V3 0 0 0) (V3 1 2 3) (RPY 0 0 0) 1)) by (apply make_made; cbn; lra).
  exists (Box (V3 0 0 0) (V3 1 2 3) (RPY 0 0 0) 1), (Box (V3 0 0 0) (V3 1 2 3) (RPY 0 0 0) 1). do 4 (split; [assumption|]). split; apply aligned_region; try exact AL; cbn; lra.
Qed.
