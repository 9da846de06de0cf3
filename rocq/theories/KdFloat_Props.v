(** C104: nearest neighbours of trees of points with double coordinates. *)
From Coq Require Import List ZArith QArith Lia Bool.
From Coq Require Import Floats.SpecFloat.
From Verif Require Import Base Binary64 Binary64_Round Binary64_Order Binary64_Ext KdTree_Model KdTree_Spec KdTree_Proofs KdFloat_Model KdFloat_Spec KdFloat_Proofs KdFloat_Proofs2.
Import ListNotations.
Local Open Scope Z_scope.

(** Whatever the dimension, the points, the query and the way std::nth_element splits ties: the search ends with a
    stored point, and no stored point has a smaller squared distance as SquaredDistance computes it, unless the one
    returned is below the tolerance.  Pruning loses nothing although every operation rounds and may overflow. *)
Theorem nearest_is_rounded_minimum :
  forall P coord dim nth_element l q tol, (0 < dim)%nat -> nth_element_finite P coord nth_element -> l <> [] ->
    (forall x, In x l -> finite_point P coord dim x) -> finite_point P coord dim q -> is_double tol -> 0 < val tol ->
  exists t p, KDTree P dim nth_element l = Ok t /\ fnearest_point P coord dim t q tol = Ok p /\ In p l /\
    (flt (rounded_sq P coord dim p q) tol = true \/
     forall x, In x l -> fle (rounded_sq P coord dim p q) (rounded_sq P coord dim x q) = true).
Proof. intros P coord dim ne l q tol D N L F Q T T0. destruct (double_number tol T) as (NT & E & _). apply nearest_rounded; try assumption. lia. Qed.
Print Assumptions nearest_is_rounded_minimum.

(** Against exact squared distances (in units of 2^-2148): the point returned is either within the tolerance, up to
    dim + 3 relative roundings and half a smallest double per coordinate, or no further than any stored point whose
    computed distance does not overflow, up to the same errors. *)
Theorem nearest_is_accurate :
  forall P coord dim nth_element l q tol, (0 < dim)%nat -> nth_element_finite P coord nth_element -> l <> [] ->
    (forall x, In x l -> finite_point P coord dim x) -> finite_point P coord dim q -> is_double tol -> 0 < val tol ->
  exists t p, KDTree P dim nth_element l = Ok t /\ fnearest_point P coord dim t q tol = Ok p /\ In p l /\
    let n := Z.of_nat dim in
    ((2 ^ 53 - 1) ^ (n + 3) * exact_sq P coord dim p q <= (2 ^ 53) ^ (n + 3) * (val tol * 2 ^ 1074 + n * 2 ^ 1073) \/
     forall x, In x l -> finite (rounded_sq P coord dim x q) = true ->
       (2 ^ 53 - 1) ^ (n + 3) * exact_sq P coord dim p q <=
       (2 ^ 53 + 1) ^ (n + 3) * exact_sq P coord dim x q + ((2 ^ 53 + 1) ^ (n + 3) + (2 ^ 53) ^ (n + 3)) * (n * 2 ^ 1073)).
Proof.
  intros P coord dim ne l q tol D N L F Q T T0. destruct (nearest_is_rounded_minimum P coord dim ne l q tol D N L F Q T T0) as (t & p & E1 & E2 & I & M).
  exists t, p. split; [exact E1|]. split; [exact E2|]. split; [exact I|]. cbv zeta. fold unit_half. destruct (double_number tol T) as (NT & ET & LT).
  assert (K0 : 0 < 2 ^ 1074) by (apply Z.pow_pos_nonneg; lia). remember (2 ^ 53) as B eqn:EB. assert (B0 : 0 <= B ^ (Z.of_nat dim + 3)) by (apply Z.pow_nonneg; subst B; discriminate).
  destruct (rounded_ok P coord dim p q (F p I) Q) as (NP & GP & _). destruct M as [M|M].
  - left. apply flt_place in M; [|exact NP|exact NT]. destruct (rounded_bounds P coord B dim p q EB (F p I) Q ltac:(lia)) as [_ W]. rewrite ET in M.
    set (H := B ^ (Z.of_nat dim + 3)) in *. set (k := 2 ^ 1074) in *. clearbody H k. set (pp := place (rounded_sq P coord dim p q)) in *. clearbody pp.
    assert (H * (pp * k) <= H * (val tol * k)) by (apply Z.mul_le_mono_nonneg_l; [exact B0|]; apply Z.mul_le_mono_nonneg_r; lia). lia.
  - right. intros x X FX. specialize (M x X). destruct (rounded_ok P coord dim x q (F x X) Q) as (NX & GX & _). apply fle_place in M; [|exact NP|exact NX].
    assert (DX : is_double (rounded_sq P coord dim x q)) by (split; [apply NX|exact FX]). destruct (double_number _ DX) as (_ & _ & LX).
    destruct (rounded_bounds P coord B dim p q EB (F p I) Q ltac:(lia)) as [_ W]. destruct (rounded_bounds P coord B dim x q EB (F x X) Q ltac:(lia)) as [U _].
    set (H := B ^ (Z.of_nat dim + 3)) in *. set (k := 2 ^ 1074) in *. clearbody H k. set (pp := place (rounded_sq P coord dim p q)) in *. set (px := place (rounded_sq P coord dim x q)) in *. clearbody pp px.
    assert (H * (pp * k) <= H * (px * k)) by (apply Z.mul_le_mono_nonneg_l; [exact B0|]; apply Z.mul_le_mono_nonneg_r; lia). lia.
Qed.
Print Assumptions nearest_is_accurate.

(** A query with a NaN coordinate is answered too: with the point at the root, wherever it is. *)
Theorem nearest_of_nan :
  forall P coord dim p j l r q tol i, (i < dim)%nat -> coord q i = fnan -> is_double tol -> 0 < val tol ->
  fnearest_point P coord dim (Node p j l r) q tol = Ok p.
Proof.
  intros P coord dim p j l r q tol i I Q T T0.
  assert (ND : forall x, fSquaredDistance P coord dim x q = fnan).
  { intros x. rewrite dist_rounded. clear - I Q. induction dim as [|n IH]; [lia|]. cbn [rounded_sq]. destruct (Nat.eq_dec i n) as [->|Ne].
    - rewrite Q. replace (fsub (coord x n) fnan) with fnan by (destruct (coord x n); reflexivity). rewrite fmul_nan_l, fadd_nan_r. reflexivity.
    - rewrite IH by lia. apply fadd_nan_l. }
  assert (S : forall t m, fnearest P coord dim t q m tol (Some (p, fnan)) = Some (p, fnan)).
  { induction t as [|p0 j0 a IHa b IHb]; intros m; [reflexivity|]. cbn [fnearest]. rewrite ND, flt_nan_l. cbn [snd]. rewrite flt_nan_l. cbv zeta.
    destruct (flt fzero (fsub (coord p0 m) (coord q m))); rewrite ?IHa, ?IHb; (replace (fle fnan (fmul (fsub (coord p0 m) (coord q m)) (fsub (coord p0 m) (coord q m)))) with false by reflexivity); rewrite ?IHa, ?IHb; reflexivity. }
  unfold fnearest_point. assert (Z0 : flt fzero tol = true) by (rewrite flt_val; [apply Z.ltb_lt, T0|split; reflexivity|exact T]). rewrite Z0. unfold throw_unless. cbn [fnearest]. rewrite ND. cbn [snd]. rewrite flt_nan_l. cbv zeta.
  destruct (flt fzero (fsub (coord p 0%nat) (coord q 0%nat))); rewrite ?S; (replace (fle fnan (fmul (fsub (coord p 0%nat) (coord q 0%nat)) (fsub (coord p 0%nat) (coord q 0%nat)))) with false by reflexivity); rewrite ?S; reflexivity.
Qed.
Print Assumptions nearest_of_nan.

(** A tolerance that is zero, negative or NaN is refused; an empty list of points too. *)
Theorem nearest_refuses :
  forall P coord dim nth_element t q tol, (is_double tol /\ val tol <= 0) \/ tol = fnan ->
  fnearest_point P coord dim t q tol = Throw /\ KDTree P dim nth_element [] = Throw.
Proof.
  intros P coord dim ne t q tol H. split; [|reflexivity]. unfold fnearest_point. destruct t; [reflexivity|]. assert (E : flt fzero tol = false).
  { destruct H as [[T L]| ->]; [|apply flt_nan_r]. rewrite flt_val; [apply Z.ltb_ge, L|split; reflexivity|exact T]. } rewrite E. reflexivity.
Qed.
Print Assumptions nearest_refuses.

(** ** Examples *)
Definition fpt : Type := (double * double * double)%type.
Definition fcoord (p : fpt) (i : nat) : double := match p, i with (x, _, _), O => x | (_, y, _), 1%nat => y | (_, _, z), _ => z end.
(** A full sort as std::nth_element. *)
Definition sort_points : nat -> nat -> list fpt -> list fpt := isort fpt (coordQ fpt fcoord).
Example sort_points_ok : nth_element_finite fpt fcoord sort_points.
Proof.
  intros i k l K. destruct (isort_ok fpt (coordQ fpt fcoord) i k l K) as [Pm O]. split; [exact Pm|]. intros a p b E L. destruct (O a p b E L) as [X Y].
  split; intros x Hx; rewrite Zle_Qle; [apply X, Hx|apply Y, Hx].
Qed.
Definition sample : list fpt := [(fint 0, fint 0, fint 0); (fint 4, fint 1, fint 0); (fint 1, fint 5, fint 2); (fof 3 (-1), fof 1 (-2), fint 0); (fint 7, fint 7, fint 7)].
Definition query : fpt := (fint 1, fof 1 (-3), fint 0).
Ltac all_points := intros x X i I; cbn [In] in X; repeat match goal with H : _ \/ _ |- _ => destruct H as [<-|H] end; try contradiction; (destruct i as [|[|[|i]]]; [split; reflexivity|split; reflexivity|split; reflexivity|lia]).
Example sample_finite : (forall x, In x sample -> finite_point fpt fcoord 3 x) /\ finite_point fpt fcoord 3 query /\ is_double double_min /\ 0 < val double_min.
Proof.
  split; [unfold sample; all_points|]. split; [intros i I; destruct i as [|[|[|i]]]; [split; reflexivity|split; reflexivity|split; reflexivity|lia]|]. split; [split; reflexivity|]. vm_compute. reflexivity.
Qed.
Example sample_nearest : obind (KDTree fpt 3 sort_points sample) (fun t => fnearest_point_default fpt fcoord 3 t query) = Ok (fof 3 (-1), fof 1 (-2), fint 0).
Proof. vm_compute. reflexivity. Qed.
Example nan_nearest : obind (KDTree fpt 3 sort_points sample) (fun t => fnearest_point_default fpt fcoord 3 t (fint 7, fnan, fint 7)) = Ok (fof 3 (-1), fof 1 (-2), fint 0).
Proof. vm_compute. reflexivity. Qed.
Example zero_tolerance : obind (KDTree fpt 3 sort_points sample) (fun t => fnearest_point fpt fcoord 3 t query fzero) = Throw.
Proof. vm_compute. reflexivity. Qed.

(** Finding: the point returned need not be the nearest in exact arithmetic, even far above the tolerance: seen from
    the origin (1, 2^-30, 0) and (1, 0, 0) have the same rounded distance and the former is met first. *)
Theorem nearest_is_exact_minimum_refuted :
  exists l q t p x, (forall y, In y l -> finite_point fpt fcoord 3 y) /\ finite_point fpt fcoord 3 q /\
    KDTree fpt 3 sort_points l = Ok t /\ fnearest_point_default fpt fcoord 3 t q = Ok p /\ In x l /\
    exact_sq fpt fcoord 3 x q < exact_sq fpt fcoord 3 p q /\ val double_min * 2 ^ 1074 < exact_sq fpt fcoord 3 x q.
Proof.
  exists [(fint 1, fzero, fzero); (fint 1, fof 1 (-30), fzero)], (fzero, fzero, fzero). eexists. exists (fint 1, fof 1 (-30), fzero), (fint 1, fzero, fzero).
  split; [all_points|]. split; [intros i I; destruct i as [|[|[|i]]]; [split; reflexivity|split; reflexivity|split; reflexivity|lia]|].
  split; [vm_compute; reflexivity|]. split; [vm_compute; reflexivity|]. split; [left; reflexivity|]. split; vm_compute; reflexivity.
Qed.
Print Assumptions nearest_is_exact_minimum_refuted.
