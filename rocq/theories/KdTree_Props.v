(** C06-C09: boxes and KD-trees. *)
From Coq Require Import List QArith Bool Permutation Lqa Lia.
From Verif Require Import Base KdTree_Model KdTree_Spec KdTree_Proofs.
Import ListNotations.
Open Scope Q_scope.

(** C06: the constructor accepts exactly the well-formed corners. *)
Theorem box_ctor : forall mn mx tol,
  match Box mn mx tol with
  | Ok b => b = mk_box mn mx tol /\ box_wf b
  | Throw => ~ box_wf (mk_box mn mx tol)
  | UB => False
  end.
Proof. exact Box_spec. Qed.
Print Assumptions box_ctor.

(** C06: Contains is membership in the tolerance-inflated closed box. *)
Theorem box_contains_iff_inflated : forall b p, BContains b p = true <-> in_inflated b p.
Proof. exact BContains_iff. Qed.
Print Assumptions box_contains_iff_inflated.

(** C06: GetIntersection never throws; it is exactly the set of common points. *)
Theorem box_get_intersection_exact : forall a b, box_wf a -> box_wf b ->
  exists m, BGetIntersection a b = Ok m /\
    match m with
    | Some c => box_wf c /\ btol c = btol a /\ forall p, in_box c p <-> in_box a p /\ in_box b p
    | None => forall p, ~ (in_box a p /\ in_box b p)
    end.
Proof. exact get_intersection_spec. Qed.
Print Assumptions box_get_intersection_exact.

(** C06: the three answers of Overlaps. *)
Theorem box_overlaps_exact : forall a b, box_wf a -> box_wf b ->
  (Overlaps a b = kDisjointed <-> ~ exists p, in_box a p /\ in_box b p) /\
  (Overlaps a b = kContained <-> (exists p, in_box a p /\ in_box b p) /\ forall p, in_box b p -> in_inflated a p) /\
  (Overlaps a b = kIntersected <-> (exists p, in_box a p /\ in_box b p) /\ ~ forall p, in_box b p -> in_inflated a p).
Proof. exact overlaps_spec. Qed.
Print Assumptions box_overlaps_exact.

Example box_example :
  let a := mk_box (V3 (Fin 0) NInf (Fin 0)) (V3 (Fin 4) (Fin 1) PInf) (1#2) in
  let b := mk_box (V3 (Fin 3) (Fin (-2)) (Fin 7)) (V3 (Fin (9#2)) (Fin 1) (Fin 8)) 0 in
  box_wf a /\ box_wf b /\ Overlaps a b = kContained /\ Overlaps b a = kIntersected
  /\ BGetIntersection a b = Ok (Some (mk_box (V3 (Fin 3) (Fin (-2)) (Fin 7)) (V3 (Fin 4) (Fin 1) (Fin 8)) (1#2))).
Proof. unfold box_wf; simpl. repeat split; try lra; vm_compute; reflexivity. Qed.

(** C07: building a tree of any dimension from any non-empty collection, for every
    conforming nth_element, ends without throwing, holds exactly the given points
    and separates the subtrees along the cycling splitting coordinate. *)
Theorem kd_tree_build : forall P coord dim, (0 < dim)%nat ->
  forall nth_element, nth_element_ok P coord nth_element ->
  forall l, l <> [] ->
  exists t, KDTree P dim nth_element l = Ok t /\ Permutation l (elements P t) /\ kd_ordered P coord dim 0 t.
Proof. exact KDTree_spec. Qed.
Print Assumptions kd_tree_build.

(** C07: the 3D tree additionally gets regions; their initialisation never throws
    and each region contains the points of its subtree. *)
Theorem kd_tree_3d_build : forall P coord nth_element, nth_element_ok P coord nth_element ->
  forall l, l <> [] ->
  exists t, KDTree3D P coord 3 nth_element l = Ok t /\ Permutation l (relements P t) /\
    kd_ordered P coord 3 0 (skeleton P t) /\ regions_cover P coord t /\ regions_wf P t.
Proof. exact KDTree3D_spec. Qed.
Print Assumptions kd_tree_3d_build.

Theorem kd_tree_empty_throws : forall P coord dim nth_element,
  KDTree P dim nth_element [] = Throw /\ KDTree3D P coord dim nth_element [] = Throw.
Proof. exact KDTree_empty_throws. Qed.
Print Assumptions kd_tree_empty_throws.

(** The hypothesis on nth_element is satisfiable: sorting the segment. *)
Example kd_nth_element_exists : nth_element_ok pt pcoord (isort pt pcoord).
Proof. exact (isort_ok pt pcoord). Qed.

(** C08: a stored point that is closest, or closer than the tolerance. *)
Theorem kd_tree_nearest_point : forall P coord dim nth_element l q tol,
  (0 < dim)%nat -> nth_element_ok P coord nth_element -> l <> [] -> 0 < tol ->
  exists t p, KDTree P dim nth_element l = Ok t /\ nearest_point P coord dim t q tol = Ok p /\ In p l /\
    (sqdist P coord dim p q < tol \/ forall x, In x l -> sqdist P coord dim p q <= sqdist P coord dim x q).
Proof. exact KDTree_nearest. Qed.
Print Assumptions kd_tree_nearest_point.

Theorem kd_tree_nearest_point_rejects_tolerance : forall P coord dim p j l r q tol, tol <= 0 ->
  nearest_point P coord dim (Node p j l r) q tol = Throw.
Proof. exact nearest_point_bad_tolerance. Qed.
Print Assumptions kd_tree_nearest_point_rejects_tolerance.

Example kd_tree_nearest_example :
  match KDTree pt 3 (isort pt pcoord) [(0,0,0); (4,1,0); (2,2,2); (9,9,9); (3,1,0)] with
  | Ok t => nearest_point pt pcoord 3 t (3,2,0) (1#1000) = Ok (3,1,0)
  | _ => False
  end.
Proof. vm_compute; reflexivity. Qed.

(** C09: RangeSearch reports a subsequence of the stored points (no duplicates), only
    points accepted by Contains, and with full multiplicity each point inside the
    closed box: for every test [f] implying membership, filtering the result is the
    same as filtering all stored points. *)
Theorem kd_tree_range_search : forall P coord nth_element, nth_element_ok P coord nth_element ->
  forall l reg, l <> [] -> box_wf reg ->
  exists t, KDTree3D P coord 3 nth_element l = Ok t /\ Permutation l (relements P t) /\
    subseq P (RangeSearch P coord reg t) (relements P t) /\
    (forall x, In x (RangeSearch P coord reg t) -> in_inflated reg (to_vec P coord x)) /\
    (forall f, (forall x, f x = true -> point_in P coord reg x) ->
       filter f (RangeSearch P coord reg t) = filter f (relements P t)).
Proof. exact KDTree3D_range_search. Qed.
Print Assumptions kd_tree_range_search.

Theorem kd_tree_range_search_complete : forall P coord nth_element, nth_element_ok P coord nth_element ->
  forall l reg, l <> [] -> box_wf reg ->
  exists t, KDTree3D P coord 3 nth_element l = Ok t /\
    forall x, In x l -> point_in P coord reg x -> In x (RangeSearch P coord reg t).
Proof. exact KDTree3D_range_search_mem. Qed.
Print Assumptions kd_tree_range_search_complete.

(** C09: in the tolerance band (outside the box, inside the inflated box) RangeSearch
    and Contains disagree: the subtree is pruned without tolerance. *)
Theorem kd_tree_range_search_band_refuted :
  exists l reg t x, l <> [] /\ box_wf reg /\ KDTree3D pt pcoord 3 (isort pt pcoord) l = Ok t /\
    In x l /\ BContains reg (to_vec pt pcoord x) = true /\ ~ In x (RangeSearch pt pcoord reg t).
Proof. exact range_search_band_refuted. Qed.
Print Assumptions kd_tree_range_search_band_refuted.

Example kd_tree_range_search_example :
  match KDTree3D pt pcoord 3 (isort pt pcoord) [(0,0,0); (4,1,0); (2,2,2); (9,9,9); (3,1,0); (4,1,0)] with
  | Ok t => length (RangeSearch pt pcoord (mk_box (V3 (Fin 2) (Fin 0) (Fin 0)) (V3 (Fin 4) (Fin 2) (Fin 2)) 0) t) = 4%nat
  | _ => False
  end.
Proof. vm_compute; reflexivity. Qed.
