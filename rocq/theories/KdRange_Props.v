(** C105: range searches of trees of points with double coordinates. *)
From Coq Require Import List Permutation ZArith Lia Bool.
From Coq Require Import Floats.SpecFloat.
From Verif Require Import Base Binary64 Binary64_Round Binary64_Order Binary64_Ext KdTree_Model KdFloat_Spec KdFloat_Proofs KdFloat_Props Doubles_Model Doubles_Spec Doubles_Proofs Doubles_Props KdRange_Model KdRange_Spec KdRange_Proofs.
Import ListNotations.
Local Open Scope Z_scope.

(** The tree of any points with finite coordinates is built, whatever order std::nth_element leaves.  Searching a
    region, with corners that may be infinite, reports stored points in one fixed order, each as often as it is
    stored or less: only points that the region contains by its own rounded comparison, and all those between its
    corners, as often as they are stored. *)
Theorem range_search_rounded :
  forall P coord nth_element l reg, nth_element_finite P coord nth_element -> l <> [] ->
    (forall x, In x l -> finite_point P coord 3 x) -> region_ok reg ->
  exists t order, fKDTree3D P coord nth_element l = Ok t /\ Permutation l order /\
    sublist (fRangeSearch P coord reg t) order /\
    (forall x, In x (fRangeSearch P coord reg t) -> DoContains reg (mk_vec (coord x 0%nat) (coord x 1%nat) (coord x 2%nat)) = true) /\
    (forall f, (forall x, f x = true -> between_corners reg (mk_vec (coord x 0%nat) (coord x 1%nat) (coord x 2%nat))) ->
      filter f (fRangeSearch P coord reg t) = filter f order).
Proof.
  intros P coord ne l reg Hn N F R. destruct (tree_built P coord ne l Hn N F) as (t & E & Pm & C).
  assert (FE : forall x, In x (felements P t) -> finite_point P coord 3 x) by (intros x X; apply F; eapply Permutation_in; [apply Permutation_sym, Pm|exact X]).
  exists t, (felements P t). split; [exact E|]. split; [exact Pm|]. destruct (search P coord reg t (fun _ => false) R FE C ltac:(discriminate)) as (A & B & _).
  split; [exact A|]. split; [exact B|]. intros f Hf. apply (search P coord reg t f R FE C Hf).
Qed.
Print Assumptions range_search_rounded.

(** For a region with finite corners: the points reported lie within the tolerance of it, up to one part in 2^53 of
    its widened bounds, and every stored point between its corners is reported. *)
Theorem range_search_accurate :
  forall P coord nth_element l reg, nth_element_finite P coord nth_element -> l <> [] ->
    (forall x, In x l -> finite_point P coord 3 x) -> proper reg ->
  exists t, fKDTree3D P coord nth_element l = Ok t /\
    (forall x, In x (fRangeSearch P coord reg t) -> In x l /\
      nearly_within (coord x 0%nat) (vx (min_corner reg)) (vx (max_corner reg)) (tolerance reg) /\
      nearly_within (coord x 1%nat) (vy (min_corner reg)) (vy (max_corner reg)) (tolerance reg) /\
      nearly_within (coord x 2%nat) (vz (min_corner reg)) (vz (max_corner reg)) (tolerance reg)) /\
    (forall x, In x l -> inside reg (val (coord x 0%nat), val (coord x 1%nat), val (coord x 2%nat)) -> In x (fRangeSearch P coord reg t)).
Proof.
  intros P coord ne l reg Hn N F R. pose proof R as (((A1 & A2 & A3) & (A4 & A5 & A6) & T) & G & O).
  destruct (double_number _ A1) as (B1 & E1 & _), (double_number _ A2) as (B2 & E2 & _), (double_number _ A3) as (B3 & E3 & _), (double_number _ A4) as (B4 & E4 & _), (double_number _ A5) as (B5 & E5 & _), (double_number _ A6) as (B6 & E6 & _).
  assert (RO : region_ok reg). { unfold region_ok, vec_number. rewrite E1, E2, E3, E4, E5, E6. tauto. }
  destruct (tree_built P coord ne l Hn N F) as (t & E & Pm & C).
  assert (FE : forall x, In x (felements P t) -> finite_point P coord 3 x) by (intros x X; apply F; eapply Permutation_in; [apply Permutation_sym, Pm|exact X]).
  exists t. split; [exact E|]. split.
  - intros x X. destruct (search P coord reg t (fun _ => false) RO FE C ltac:(discriminate)) as (A & B & _). specialize (B x X).
    assert (XE : In x (felements P t)). { clear - A X. induction A as [|y a b A IH|y a b A IH]; [destruct X|right; auto|destruct X as [->|X]; [left; reflexivity|right; auto]]. }
    split; [eapply Permutation_in; [apply Permutation_sym, Pm|exact XE]|].
    assert (D : vec_double (fto_vec P coord x)) by (unfold vec_double, fto_vec; cbn [vx vy vz]; repeat match goal with |- _ /\ _ => split end; apply (FE x XE); lia).
    exact (proj2 (proj2 (box_contains_rounded reg _ R D)) B).
  - intros x X I. pose (f := fun y => forallb (fun c : Z * Z * Z => let '(a, b, c) := c in (a <=? b) && (b <=? c))
       [(val (vx (min_corner reg)), val (coord y 0%nat), val (vx (max_corner reg))); (val (vy (min_corner reg)), val (coord y 1%nat), val (vy (max_corner reg))); (val (vz (min_corner reg)), val (coord y 2%nat), val (vz (max_corner reg)))]).
    assert (Ff : forall y, f y = true <-> inside reg (val (coord y 0%nat), val (coord y 1%nat), val (coord y 2%nat))).
    { intros y. unfold f. cbn [forallb]. unfold inside. rewrite !andb_true_iff, !Z.leb_le. tauto. }
    pose (g := fun y => f y && finite (coord y 0%nat) && finite (coord y 1%nat) && finite (coord y 2%nat)).
    assert (Hg : forall y, g y = true -> within_box P coord reg y).
    { intros y H. unfold g in H. rewrite !andb_true_iff, Ff in H. destruct H as (((H & H0) & H1) & H2). unfold inside in H. unfold within_box, between_corners, fto_vec; cbn [vx vy vz]. rewrite E1, E2, E3, E4, E5, E6.
      assert (Pl : forall z, finite z = true -> place z = val z) by (intros [] ?; try discriminate; reflexivity). rewrite !Pl by assumption. exact H. }
    destruct (search P coord reg t g RO FE C Hg) as (_ & _ & Eq). assert (In x (filter g (felements P t))).
    { apply filter_In. split; [eapply Permutation_in; [exact Pm|exact X]|]. unfold g. rewrite !andb_true_iff, Ff. pose proof (F x X) as FX. repeat match goal with |- _ /\ _ => split end; [exact I|apply (FX 0%nat); lia|apply (FX 1%nat); lia|apply (FX 2%nat); lia]. }
    rewrite <- Eq in H. apply filter_In in H. tauto.
Qed.
Print Assumptions range_search_accurate.

(** No region has a NaN in it. *)
Theorem region_refuses_nan :
  forall mn mx tol, In fnan [vx mn; vy mn; vz mn; vx mx; vy mx; vz mx; tol] -> AxisAlignedBox mn mx tol = Throw.
Proof.
  intros mn mx tol H. assert (L : forall a, fle fnan a = false) by reflexivity. assert (R : forall a, fle a fnan = false) by (intros []; reflexivity).
  unfold AxisAlignedBox, throw_unless. destruct mn as [a b c], mx as [d e f]. cbn [vx vy vz] in *.
  repeat match goal with H : In _ (_ :: _) |- _ => destruct H as [->|H] | H : In _ [] |- _ => destruct H end;
    repeat match goal with |- context [fle ?u ?v] => first [rewrite L|rewrite R|destruct (fle u v)] end; reflexivity.
Qed.
Print Assumptions region_refuses_nan.

(** ** Examples *)
Definition half_open : box := mk_box (mk_vec ninf (fint 0) (fint 0)) (mk_vec (fint 2) pinf (fint 3)) default_tolerance.
Example half_open_ok : region_ok half_open.
Proof. unfold region_ok, vec_number, number. repeat match goal with |- _ /\ _ => split | |- is_double _ => split end; (vm_compute; first [reflexivity|discriminate]). Qed.
Example half_open_search : obind (fKDTree3D fpt fcoord sort_points sample) (fun t => Ok (fRangeSearch fpt fcoord half_open t)) = Ok [(fof 3 (-1), fof 1 (-2), fint 0); (fint 1, fint 5, fint 2); (fint 0, fint 0, fint 0)].
Proof. vm_compute. reflexivity. Qed.
Definition small_box : box := mk_box (mk_vec (fint 0) (fint 0) (fint 0)) (mk_vec (fint 2) (fint 2) (fint 3)) default_tolerance.
Example small_box_proper : proper small_box.
Proof. unfold proper, box_double, vec_double. repeat match goal with |- _ /\ _ => split | |- is_double _ => split end; (vm_compute; first [reflexivity|discriminate]). Qed.
Example small_box_search : obind (fKDTree3D fpt fcoord sort_points sample) (fun t => Ok (fRangeSearch fpt fcoord small_box t)) = Ok [(fof 3 (-1), fof 1 (-2), fint 0); (fint 0, fint 0, fint 0)].
Proof. vm_compute. reflexivity. Qed.
Example nan_region : AxisAlignedBox (mk_vec (fint 0) fnan (fint 0)) (mk_vec (fint 1) (fint 1) (fint 1)) default_tolerance = Throw.
Proof. reflexivity. Qed.

(** Finding: a stored point that the region contains, within its tolerance, need not be reported: whether it is
    depends on the shape of the tree.  Here x = 0 is within the tolerance 1 of the box that starts at x = 0.5. *)
Definition band : box := mk_box (mk_vec (fof 1 (-1)) (fint 0) (fint 0)) (mk_vec (fint 9) (fint 9) (fint 9)) (fint 1).
Definition band_list : list fpt := map (fun '(x, y) => (fint x, fint y, fint 0)) [(0, 0); (0, 1); (0, 2); (0, 3); (5, 0); (5, 1); (5, 2)].
Theorem range_search_reports_contained_refuted :
  exists l reg t x, region_ok reg /\ (forall y, In y l -> finite_point fpt fcoord 3 y) /\ fKDTree3D fpt fcoord sort_points l = Ok t /\ In x l /\
    DoContains reg (mk_vec (fcoord x 0%nat) (fcoord x 1%nat) (fcoord x 2%nat)) = true /\ ~ In x (fRangeSearch fpt fcoord reg t).
Proof.
  exists band_list, band. destruct (fKDTree3D fpt fcoord sort_points band_list) as [t| |] eqn:E; [|vm_compute in E; discriminate|vm_compute in E; discriminate]. exists t, (fint 0, fint 1, fint 0).
  split; [unfold region_ok, vec_number, number; repeat match goal with |- _ /\ _ => split | |- is_double _ => split end; (vm_compute; first [reflexivity|discriminate])|].
  split; [unfold band_list; cbn [map]; all_points|]. split; [reflexivity|]. split; [right; left; reflexivity|]. split; [vm_compute; reflexivity|].
  assert (S : fRangeSearch fpt fcoord band t = match fKDTree3D fpt fcoord sort_points band_list with Ok t => fRangeSearch fpt fcoord band t | _ => [] end) by (rewrite E; reflexivity).
  rewrite S. vm_compute. intuition discriminate.
Qed.
Print Assumptions range_search_reports_contained_refuted.
