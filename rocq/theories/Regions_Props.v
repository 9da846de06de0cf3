(** C01-C05: theorems about Regions_Model. *)
From Coq Require Import List QArith Qabs Bool.
From Verif Require Import Base Regions_Model Regions_Spec Regions_Proofs.
Import ListNotations.
Open Scope Q_scope.

(** The constructor establishes [valid] and is the only gate to it. *)
Theorem srange_ctor_valid : forall a b,
  match SRange a b with
  | Ok r => valid r /\ s0 r = a /\ s1 r = b
  | Throw => a < 0 \/ b < 0
  | UB => False
  end.
Proof. exact srange_ctor_spec. Qed.
Print Assumptions srange_ctor_valid.

(** C01, tolerance >= 0: never throws, true iff the two intervals come within [tol]. *)
Theorem srange_intersects_iff_near : forall r o tol, valid r -> valid o -> 0 <= tol ->
  exists b, Intersects r o tol = Ok b /\ (b = true <-> near tol r o).
Proof. exact intersects_pos. Qed.
Print Assumptions srange_intersects_iff_near.

(** C01, tolerance < 0: true iff the common part is at least |tol| long. *)
Theorem srange_intersects_negative_tolerance : forall r o tol, valid r -> valid o -> tol < 0 ->
  - tol <= size r / 2 -> - tol <= size o / 2 ->
  exists b, Intersects r o tol = Ok b /\ (b = true <-> overlap_at_least (- tol) r o).
Proof. exact intersects_neg'. Qed.
Print Assumptions srange_intersects_negative_tolerance.

(** C01: the call throws exactly when |tol| exceeds half of the smaller size. *)
Theorem srange_intersects_throws_iff : forall r o tol, valid r -> valid o ->
  (Intersects r o tol = Throw <-> tol < 0 /\ (size r / 2 < - tol \/ size o / 2 < - tol)).
Proof. exact intersects_throw_iff. Qed.
Print Assumptions srange_intersects_throws_iff.

(** C01: receiver and argument, and the directions of both, do not matter. *)
Theorem srange_intersects_symmetric : forall r o tol, valid r -> valid o ->
  Intersects r o tol = Intersects o r tol.
Proof. exact intersects_sym. Qed.
Print Assumptions srange_intersects_symmetric.

Theorem srange_intersects_direction_free : forall r o tol, valid r -> valid o ->
  Intersects (flip r) o tol = Intersects r o tol /\ Intersects r (flip o) tol = Intersects r o tol.
Proof. exact intersects_flip2. Qed.
Print Assumptions srange_intersects_direction_free.

(** C01, documentation (regions.h 94-95: the tolerance widens *both* ranges): two
    ranges whose widened intervals share a point are reported as disjoint. *)
Theorem srange_intersects_widens_both_refuted :
  exists r o tol x, valid r /\ valid o /\ 0 <= tol /\
    In_range x (mk_srange (s0 r - tol) (s1 r + tol)) /\ In_range x (mk_srange (s0 o - tol) (s1 o + tol)) /\
    Intersects r o tol = Ok false.
Proof. exact intersects_widens_both_refuted. Qed.
Print Assumptions srange_intersects_widens_both_refuted.

Example srange_intersects_example :
  let r := mk_srange 3 7 in let o := mk_srange 12 8 in
  valid r /\ valid o /\ Intersects r o 1 = Ok true /\ Intersects r o (1#2) = Ok false
  /\ Intersects r (mk_srange 5 9) (-1) = Ok true /\ Intersects r o (-3) = Throw.
Proof. unfold valid; simpl. repeat split; try discriminate; vm_compute; reflexivity. Qed.

(** C02 *)
Theorem srange_contains_iff_within : forall r o tol, valid r -> valid o -> 0 <= tol ->
  exists b, Contains r o tol = Ok b /\ (b = true <-> within tol r o).
Proof. exact contains_pos. Qed.
Print Assumptions srange_contains_iff_within.

(** C02, tolerance < 0: every point within |tol| of [o] is in [r]. *)
Theorem srange_contains_negative_tolerance : forall r o tol, valid r -> valid o -> tol < 0 ->
  - tol <= size r / 2 -> - tol <= size o / 2 ->
  exists b, Contains r o tol = Ok b /\
   (b = true <-> (forall y, In_range y o -> forall z, Qabs (z - y) <= - tol -> In_range z r)).
Proof. exact contains_neg'. Qed.
Print Assumptions srange_contains_negative_tolerance.

Theorem srange_contains_throws_iff : forall r o tol, valid r -> valid o ->
  (Contains r o tol = Throw <-> tol < 0 /\ (size r / 2 < - tol \/ size o / 2 < - tol)).
Proof. exact contains_throw_iff. Qed.
Print Assumptions srange_contains_throws_iff.

Theorem srange_contains_order : forall r o q, valid r -> valid o -> valid q ->
  Contains r r 0 = Ok true /\
  (Contains r o 0 = Ok true -> Contains o q 0 = Ok true -> Contains r q 0 = Ok true) /\
  (forall tol, 0 <= tol -> Contains r o tol = Ok true -> Intersects r o tol = Ok true).
Proof. exact contains_order. Qed.
Print Assumptions srange_contains_order.

Example srange_contains_example :
  Contains (mk_srange 9 2) (mk_srange 3 8) 0 = Ok true /\ Contains (mk_srange 9 2) (mk_srange 1 8) (1#2) = Ok false.
Proof. split; vm_compute; reflexivity. Qed.

(** C03 *)
Theorem srange_get_intersection_iff_intersects : forall r o tol, valid r -> valid o -> 0 <= tol ->
  exists m, GetIntersection r o tol = Ok m /\
    (near tol r o <-> exists i, m = Some i /\ valid i).
Proof. exact get_iff. Qed.
Print Assumptions srange_get_intersection_iff_intersects.

(** C03, tolerance 0: exactly the common points. *)
Theorem srange_get_intersection_exact : forall r o, valid r -> valid o ->
  exists m, GetIntersection r o 0 = Ok m /\
   match m with
   | Some i => s0 i <= s1 i /\ (forall x, In_range x i <-> In_range x r /\ In_range x o)
   | None => forall x, ~ (In_range x r /\ In_range x o)
   end.
Proof. exact get_zero. Qed.
Print Assumptions srange_get_intersection_exact.

(** C03, tolerance > 0: both returned ends are within tolerance of both ranges and
    no common point is farther than [tol] outside.  Missing: [s0 i <= s1 i] (false,
    see below). *)
Theorem srange_get_intersection_tolerant_partial : forall r o tol i, valid r -> valid o -> 0 <= tol ->
   GetIntersection r o tol = Ok (Some i) ->
   (forall x, (x = s0 i \/ x = s1 i) ->
      (exists y, In_range y r /\ Qabs (x - y) <= tol) /\ (exists y, In_range y o /\ Qabs (x - y) <= tol))
   /\ (forall x, In_range x r -> In_range x o -> s0 i <= x + tol /\ x <= s1 i + tol).
Proof. exact get_pos. Qed.
Print Assumptions srange_get_intersection_tolerant_partial.

(** C03: with a positive tolerance the returned range can run backwards although
    both inputs run forwards: [0,10] and [10.5,20] with tolerance 1 give (10.5, 10). *)
Theorem srange_get_intersection_order_refuted :
  exists r o tol i, valid r /\ valid o /\ 0 < tol /\ s0 r < s1 r /\ s0 o < s1 o /\
    GetIntersection r o tol = Ok (Some i) /\ s1 i < s0 i.
Proof. exact get_order_refuted. Qed.
Print Assumptions srange_get_intersection_order_refuted.

(** C03: with a negative tolerance the result can contain points that are not in
    the argument: [0,10] and [0,9] with tolerance -2 give [0,10]. *)
Theorem srange_get_intersection_negative_refuted :
  exists r o tol i x, valid r /\ valid o /\ tol < 0 /\
    GetIntersection r o tol = Ok (Some i) /\ In_range x i /\ ~ In_range x o.
Proof. exact get_negative_refuted. Qed.
Print Assumptions srange_get_intersection_negative_refuted.

Example srange_get_intersection_example :
  GetIntersection (mk_srange 2 7) (mk_srange 9 4) 0 = Ok (Some (mk_srange 4 7)).
Proof. vm_compute; reflexivity. Qed.

(** Lane ranges: same lane and intersecting s-ranges; GetIntersection's internal
    check never fires. *)
Theorem lane_srange_intersects_iff : forall a b tol, lvalid a -> lvalid b -> 0 <= tol ->
  exists x, LIntersects a b tol = Ok x /\ (x = true <-> lnear tol a b).
Proof. exact lintersects_pos. Qed.
Print Assumptions lane_srange_intersects_iff.

Theorem lane_srange_get_intersection : forall a b tol, lvalid a -> lvalid b -> 0 <= tol ->
  exists m, LGetIntersection a b tol = Ok m /\
    match m with
    | Some i => lnear tol a b /\ lane_id i = lane_id a
                /\ GetIntersection (s_range a) (s_range b) tol = Ok (Some (s_range i))
    | None => ~ lnear tol a b
    end.
Proof. exact lgetintersection_never_throws_extra. Qed.
Print Assumptions lane_srange_get_intersection.

(** C04, full claim restricted to arguments that visit each lane once. *)
Theorem lane_sroute_intersects_partial : forall a b tol,
  Forall lvalid a -> Forall lvalid b -> 0 <= tol -> NoDup (map lane_id b) ->
  exists x, RIntersects a b tol = Ok x /\ (x = true <-> rnear tol a b).
Proof. exact rintersects_iff. Qed.
Print Assumptions lane_sroute_intersects_partial.

(** C04, soundness for all routes: no false positives, no throw. *)
Theorem lane_sroute_intersects_sound : forall a b tol,
  Forall lvalid a -> Forall lvalid b -> 0 <= tol ->
  exists x, RIntersects a b tol = Ok x /\ (x = true -> rnear tol a b).
Proof. exact rintersects_sound. Qed.
Print Assumptions lane_sroute_intersects_sound.

Theorem lane_sroute_intersects_symmetric_partial : forall a b tol,
  Forall lvalid a -> Forall lvalid b -> 0 <= tol -> NoDup (map lane_id a) -> NoDup (map lane_id b) ->
  RIntersects a b tol = RIntersects b a tol.
Proof. exact rintersects_sym. Qed.
Print Assumptions lane_sroute_intersects_symmetric_partial.

(** C04: with a repeated lane an overlap is missed and symmetry fails. *)
Theorem lane_sroute_intersects_refuted :
  exists a b, Forall lvalid a /\ Forall lvalid b /\ rnear 0 a b /\
    RIntersects a b 0 = Ok false /\ RIntersects b a 0 = Ok true.
Proof. exact rintersects_refuted. Qed.
Print Assumptions lane_sroute_intersects_refuted.

Example lane_sroute_intersects_example :
  let a := [mk_lsrange 1 (mk_srange 0 5); mk_lsrange 2 (mk_srange 3 0)] in
  let b := [mk_lsrange 3 (mk_srange 0 5); mk_lsrange 2 (mk_srange 2 8)] in
  NoDup (map lane_id b) /\ RIntersects a b 0 = Ok true /\ RIntersects [hd (mk_lsrange 0 (mk_srange 0 0)) a] b 0 = Ok false.
Proof.
  simpl. split; [|split; vm_compute; reflexivity].
  repeat constructor; simpl; intuition discriminate.
Qed.

(** LaneSRoute::length is additive and non-negative. *)
Theorem lane_sroute_length_additive : forall a b,
  route_length (a ++ b) == route_length a + route_length b /\ 0 <= route_length a.
Proof. exact (fun a b => conj (route_length_app a b) (route_length_nonneg a)). Qed.
Print Assumptions lane_sroute_length_additive.

(** C05, soundness for all inputs: true only if the position is on one of the ranges;
    never UB, never throws for known lanes. *)
Theorem is_included_sound : forall to_lane tol, 0 <= tol -> forall rs,
  Forall lvalid rs -> s_nonneg to_lane -> rs <> [] ->
  (forall r, In r rs -> to_lane (lane_id r) <> None) ->
  exists b, IsIncluded to_lane tol rs = Ok b /\ (b = true -> exists r, In r rs /\ on_range to_lane tol r).
Proof. exact included_sound. Qed.
Print Assumptions is_included_sound.

(** C05, completeness only when at most one given range is on a lane within
    tolerance.  Missing: overlapping lanes and several ranges on one lane. *)
Theorem is_included_complete_partial : forall to_lane tol, 0 <= tol -> forall rs,
  Forall lvalid rs -> s_nonneg to_lane -> decisive to_lane tol rs ->
  (forall r, In r rs -> to_lane (lane_id r) <> None) ->
  (exists r, In r rs /\ on_range to_lane tol r) -> IsIncluded to_lane tol rs = Ok true.
Proof. exact included_complete. Qed.
Print Assumptions is_included_complete_partial.

(** C05: two ranges of one lane; the position is on the second one but the first
    decides, and swapping the ranges changes the answer. *)
Theorem is_included_order_refuted :
  exists to_lane tol rs, 0 <= tol /\ Forall lvalid rs /\ s_nonneg to_lane /\
    (exists r, In r rs /\ on_range to_lane tol r) /\
    IsIncluded to_lane tol rs = Ok false /\ IsIncluded to_lane tol (rev rs) = Ok true.
Proof. exact included_refuted. Qed.
Print Assumptions is_included_order_refuted.

(** C05: throws exactly on an empty list or an unknown lane (given s >= 0). *)
Theorem is_included_throws_iff : forall to_lane tol rs, 0 <= tol ->
  Forall lvalid rs -> s_nonneg to_lane ->
  (IsIncluded to_lane tol rs = Throw <-> rs = [] \/ exists r, In r rs /\ to_lane (lane_id r) = None).
Proof. exact included_throws_iff. Qed.
Print Assumptions is_included_throws_iff.

Example is_included_example :
  let to_lane := fun l => match l with 1%nat => Some (10, 0) | 2%nat => Some (0, 5) | _ => None end in
  let rs := [mk_lsrange 1 (mk_srange 0 9); mk_lsrange 2 (mk_srange 4 6)] in
  decisive to_lane (1#100) rs /\ IsIncluded to_lane (1#100) rs = Ok true.
Proof.
  simpl. split; [|vm_compute; reflexivity].
  intros r1 r2 d1 x1 d2 x2 [E1|[E1|[]]] [E2|[E2|[]]]; subst; simpl; intros A B C D; try reflexivity;
   inversion A; inversion C; subst; exfalso;
   match goal with H : 10 <= _ |- _ => revert H; vm_compute; intro H; apply H; reflexivity end.
Qed.
