(** What comparisons with tolerances decide when they are carried out on doubles. *)
From Coq Require Import List Bool ZArith Lia.
From Coq Require Import Floats.SpecFloat.
From Verif Require Import Base Binary64 Binary64_Round Binary64_Order Doubles_Model Doubles_Spec Doubles_Proofs.
Import ListNotations.
Local Open Scope Z_scope.

(** * C100: bounds of lanes and boxes *)

(** Lane::Contains never turns away a position that is, in exact arithmetic, within the bounds widened by the linear
    tolerance, and what it accepts exceeds them by no more than a rounding error, whatever the magnitudes. *)
Theorem lane_contains_rounded :
  forall l s r h sb eb,
    segment_bounds l s = Ok sb -> elevation_bounds l s r = Ok eb ->
    is_double s -> is_double r -> is_double h -> is_double (length l) -> is_double (linear_tolerance l) ->
    is_double (b_min sb) -> is_double (b_max sb) -> is_double (b_min eb) -> is_double (b_max eb) ->
    exists answer, Lane_Contains l s r h = Ok answer /\
      (within s fzero (length l) (linear_tolerance l) -> within r (b_min sb) (b_max sb) (linear_tolerance l) ->
       within h (b_min eb) (b_max eb) (linear_tolerance l) -> answer = true) /\
      (answer = true -> nearly_within s fzero (length l) (linear_tolerance l) /\
       nearly_within r (b_min sb) (b_max sb) (linear_tolerance l) /\ nearly_within h (b_min eb) (b_max eb) (linear_tolerance l)).
Proof.
  intros l s r h sb eb SB EB S R H L T A B C D. unfold Lane_Contains. rewrite SB. cbn [obind]. rewrite EB. cbn [obind]. eexists; split; [reflexivity|]. pose proof zero_double as Z0.
  destruct (within_range s fzero (length l) _ S Z0 L T) as [S1 S2]. destruct (within_range r _ _ _ R A B T) as [R1 R2]. destruct (within_range h _ _ _ H C D T) as [H1 H2].
  rewrite !andb_true_iff. tauto.
Qed.
Print Assumptions lane_contains_rounded.
(** A coordinate that is no number is in no lane. *)
Theorem lane_contains_nan :
  forall l s r h sb eb,
    segment_bounds l s = Ok sb -> elevation_bounds l s r = Ok eb -> s = fnan \/ r = fnan \/ h = fnan ->
    Lane_Contains l s r h = Ok false.
Proof.
  intros l s r h sb eb SB EB N. unfold Lane_Contains. rewrite SB. cbn [obind]. rewrite EB. cbn [obind]. destruct N as [->|[->| ->]]; rewrite within_nan; rewrite ?andb_false_r; reflexivity.
Qed.
Print Assumptions lane_contains_nan.
Definition flat (len half tol : double) : lane :=
  mk_lane (fun s => if fle fzero s && fle s len then Ok (mk_bounds (fneg half) half) else Throw) (fun _ _ => Ok (mk_bounds fzero (fint 5))) len tol.
Definition third_ : double := fdiv (fint 3) (fint 10).
Definition seventh_ : double := fdiv (fint 7) (fint 10).
Definition hundredth : double := fdiv (fint 1) (fint 100).
Example contains_ex :
  Lane_Contains (flat (fint 100) (fint 2) hundredth) (fint 50) (fint 2) (fint 5) = Ok true /\
  Lane_Contains (flat (fint 100) (fint 2) hundredth) (fint 50) fnan (fint 5) = Ok false /\
  Lane_Contains (flat (fint 100) (fint 2) hundredth) (fint 50) (fint 3) (fint 5) = Ok false /\
  is_double hundredth /\ within (fint 2) (fneg (fint 2)) (fint 2) hundredth.
Proof. repeat split; vm_compute; congruence || reflexivity. Qed.
(** Finding: the acceptance is not exact. The range [0, 0.3] with tolerance 0.7 accepts 1; the exact sum of the
    doubles 0.3 and 0.7 is less than 1 and is rounded up. *)
Theorem exact_membership_refuted :
  exists x mn mx tol, is_double x /\ is_double mn /\ is_double mx /\ is_double tol /\ 0 < val tol /\
    IsWithinRange x mn mx tol = true /\ ~ within x mn mx tol.
Proof.
  exists (fint 1), fzero, third_, seventh_. repeat split; try (vm_compute; reflexivity). intros [_ H]. vm_compute in H. apply H. reflexivity.
Qed.
Print Assumptions exact_membership_refuted.
(** Finding: a position next to the end of a lane, within the tolerance, gets an exception instead of an answer when
    the lane checks s exactly in segment_bounds, since the bounds are asked for before s is compared. *)
Theorem contains_answers_refuted :
  exists l s r h, is_double s /\ is_double r /\ is_double h /\ is_double (length l) /\ within s fzero (length l) (linear_tolerance l) /\
    Lane_Contains l s r h = Throw.
Proof.
  exists (flat (fint 100) (fint 2) (fint 1)), (fint 101), fzero, fzero. repeat split; try (vm_compute; reflexivity); vm_compute; congruence.
Qed.
Print Assumptions contains_answers_refuted.

(** The constructor accepts exactly the boxes with ordered corners and a tolerance that is not negative. *)
Theorem box_built :
  forall mn mx tol, vec_double mn -> vec_double mx -> is_double tol ->
    (proper (mk_box mn mx tol) -> AxisAlignedBox mn mx tol = Ok (mk_box mn mx tol)) /\
    (~ proper (mk_box mn mx tol) -> AxisAlignedBox mn mx tol = Throw).
Proof. intros mn mx tol A B T. destruct (box_cases mn mx tol A B T) as [[-> P]|[-> P]]; tauto. Qed.
Print Assumptions box_built.
(** A box contains every double between its corners, and nothing farther than the tolerance and a rounding error. *)
Theorem box_contains_rounded :
  forall b p, proper b -> vec_double p ->
    (within (vx p) (vx (min_corner b)) (vx (max_corner b)) (tolerance b) -> within (vy p) (vy (min_corner b)) (vy (max_corner b)) (tolerance b) ->
     within (vz p) (vz (min_corner b)) (vz (max_corner b)) (tolerance b) -> DoContains b p = true) /\
    (inside b (at_vec p) -> DoContains b p = true) /\
    (DoContains b p = true ->
      nearly_within (vx p) (vx (min_corner b)) (vx (max_corner b)) (tolerance b) /\ nearly_within (vy p) (vy (min_corner b)) (vy (max_corner b)) (tolerance b) /\
      nearly_within (vz p) (vz (min_corner b)) (vz (max_corner b)) (tolerance b)).
Proof.
  intros b p (((A1 & A2 & A3) & (A4 & A5 & A6) & T) & P & _) (X & Y & Z). rewrite contains_axes.
  destruct (within_range (vx p) _ _ _ X A1 A4 T) as [X1 X2]. destruct (within_range (vy p) _ _ _ Y A2 A5 T) as [Y1 Y2]. destruct (within_range (vz p) _ _ _ Z A3 A6 T) as [Z1 Z2].
  split; [tauto|]. split; [|tauto]. unfold inside, at_vec. intros (HX & HY & HZ). split; [apply X1; unfold within; lia|]. split; [apply Y1; unfold within; lia|apply Z1; unfold within; lia].
Qed.
Print Assumptions box_contains_rounded.
(** Two boxes are reported disjoint exactly when they have no point in common; no rounding is involved. *)
Theorem box_disjoint_exact :
  forall a b, proper a -> proper b -> (DoOverlaps a b = kDisjointed <-> ~ exists p, inside a p /\ inside b p).
Proof.
  intros a b A B. unfold DoOverlaps. pose proof (intersected_val a b A B) as I. destruct A as (_ & _ & A1 & A2 & A3), B as (_ & _ & B1 & B2 & B3).
  destruct (IsBoxIntersected a b).
  - destruct (proj1 I eq_refl) as (X & Y & Z). split; [destruct (IsBoxContained a b); discriminate|]. intros N. exfalso. apply N.
    exists (Z.max (val (vx (min_corner a))) (val (vx (min_corner b))), Z.max (val (vy (min_corner a))) (val (vy (min_corner b))), Z.max (val (vz (min_corner a))) (val (vz (min_corner b)))).
    unfold inside. lia.
  - split; [|reflexivity]. intros _ (((x & y) & z) & P & Q). unfold inside in P, Q. enough (false = true) by discriminate. apply I. lia.
Qed.
Print Assumptions box_disjoint_exact.
(** A box reported as contained has all its doubles in the other one, and a box that lies inside is reported so. *)
Theorem box_contained_exact :
  forall a b, proper a -> proper b ->
    (DoOverlaps a b = kContained -> forall p, vec_double p -> inside b (at_vec p) -> DoContains a p = true) /\
    ((forall p, inside b p -> inside a p) -> DoOverlaps a b = kContained).
Proof.
  intros a b A B. pose proof (intersected_val a b A B) as I. pose proof A as A'. pose proof B as B'.
  destruct A as (((A1 & A2 & A3) & (A4 & A5 & A6) & TA) & TP & A7 & A8 & A9), B as (((B1 & B2 & B3) & (B4 & B5 & B6) & TB) & TQ & B7 & B8 & B9). split.
  - unfold DoOverlaps. destruct (IsBoxIntersected a b); [|discriminate]. destruct (IsBoxContained a b) eqn:C; [|discriminate]. intros _ p (X & Y & Z) (PX & PY & PZ).
    unfold IsBoxContained in C. cbn [get_vertices forallb] in C. rewrite !andb_true_iff in C. destruct C as (C1 & _ & _ & _ & _ & _ & _ & C8 & _). rewrite contains_axes in C1, C8 |- *. cbn [vx vy vz] in C1, C8. destruct C1 as (D1 & D2 & D3), C8 as (E1 & E2 & E3).
    split; [eapply range_mono with (a := vx (min_corner b)) (b := vx (max_corner b)); eassumption|]. split; [eapply range_mono with (a := vy (min_corner b)) (b := vy (max_corner b)); eassumption|eapply range_mono with (a := vz (min_corner b)) (b := vz (max_corner b)); eassumption].
  - intros H. pose proof (H (at_vec (min_corner b)) ltac:(unfold inside, at_vec; lia)) as L. pose proof (H (at_vec (max_corner b)) ltac:(unfold inside, at_vec; lia)) as U. unfold inside, at_vec in L, U.
    unfold DoOverlaps. replace (IsBoxIntersected a b) with true by (symmetry; apply I; lia). replace (IsBoxContained a b) with true; [reflexivity|]. symmetry.
    assert (V : forall v, vec_double v -> inside a (at_vec v) -> DoContains a v = true) by (intros v D; apply (proj1 (proj2 (box_contains_rounded a v A' D)))).
    unfold IsBoxContained. cbn [get_vertices forallb]. rewrite !andb_true_iff. repeat split; apply V; try (unfold vec_double; cbn; tauto); unfold inside, at_vec; cbn; lia.
Qed.
Print Assumptions box_contained_exact.
(** The intersection of two boxes has exactly their common points, and never fails. *)
Theorem box_intersection_exact :
  forall a b, proper a -> proper b ->
    (exists c, GetIntersection a b = Ok (Some c) /\ proper c /\ tolerance c = tolerance a /\ forall p, inside c p <-> inside a p /\ inside b p) \/
    (GetIntersection a b = Ok None /\ ~ exists p, inside a p /\ inside b p).
Proof.
  intros a b A B. pose proof (intersected_val a b A B) as I. pose proof (box_disjoint_exact a b A B) as DJ. unfold DoOverlaps in DJ. destruct A as (((A1 & A2 & A3) & (A4 & A5 & A6) & TA) & TP & A7 & A8 & A9), B as (((B1 & B2 & B3) & (B4 & B5 & B6) & TB) & TQ & B7 & B8 & B9).
  unfold GetIntersection. destruct (IsBoxIntersected a b); cbn [negb].
  - left. destruct (proj1 I eq_refl) as (X & Y & Z).
    destruct (fmax_val _ _ A1 B1) as [M1 V1], (fmax_val _ _ A2 B2) as [M2 V2], (fmax_val _ _ A3 B3) as [M3 V3], (fmin_val _ _ A4 B4) as [M4 V4], (fmin_val _ _ A5 B5) as [M5 V5], (fmin_val _ _ A6 B6) as [M6 V6].
    match goal with |- context [AxisAlignedBox ?u ?v ?t] => set (mn := u); set (mx := v) end. assert (P : proper (mk_box mn mx (tolerance a))). { split; [unfold box_double, vec_double; cbn; tauto|]. subst mn mx; cbn. rewrite V1, V2, V3, V4, V5, V6. lia. }
    exists (mk_box mn mx (tolerance a)). assert (DN : vec_double mn) by (unfold vec_double; cbn; tauto). assert (DX : vec_double mx) by (unfold vec_double; cbn; tauto). destruct (box_cases mn mx (tolerance a) DN DX TA) as [[-> _]|[_ N]]; [|tauto]. split; [reflexivity|]. split; [exact P|]. split; [reflexivity|].
    intros ((x & y) & z). unfold inside. subst mn mx; cbn [min_corner max_corner vx vy vz]. rewrite V1, V2, V3, V4, V5, V6. lia.
  - right. split; [reflexivity|]. apply DJ. reflexivity.
Qed.
Print Assumptions box_intersection_exact.
Definition cube (a b : Z) : box := mk_box (mk_vec (fint a) (fint a) (fint a)) (mk_vec (fint b) (fint b) (fint b)) hundredth.
Example box_ex :
  proper (cube 0 4) /\ proper (cube 2 6) /\ DoOverlaps (cube 0 4) (cube 2 6) = kIntersected /\ DoOverlaps (cube 0 4) (cube 5 6) = kDisjointed /\
  DoOverlaps (cube 0 4) (cube 1 2) = kContained /\ GetIntersection (cube 0 4) (cube 2 6) = Ok (Some (cube 2 4)) /\ inside (cube 2 4) (at_vec (mk_vec (fint 3) (fint 3) (fint 3))).
Proof. repeat split; vm_compute; congruence || reflexivity. Qed.
