(** C69: what rounding does to the distance between orientations. *)
From Coq Require Import ZArith Bool.
From Verif Require Import Binary64 LaneDataFloat_Model.
Local Open Scope Z_scope.

(** acos as the C standard has it above 1 (C11 F.10.1.1). *)
Definition nan_above_one (acos : double -> double) : Prop := forall x, flt (fint 1) x = true -> acos x = fnan.
(** Whenever rounding takes one inner product above 1 the distance is NaN. *)
Theorem distance_is_nan : forall acos a b, nan_above_one acos ->
  (flt (fint 1) (fdot (fapply a axis_s) (fapply b axis_s)) = true \/ flt (fint 1) (fdot (fapply a axis_r) (fapply b axis_r)) = true \/ flt (fint 1) (fdot (fapply a axis_h) (fapply b axis_h)) = true) ->
  fdistance acos a b = fnan /\ (forall tol, forientation_fails acos a b tol = false) /\ (forall pa pb linear angular, fcontiguous acos pa pb a b linear angular = false).
Proof.
  intros acos a b N H. assert (E : fdistance acos a b = fnan).
  { unfold fdistance. cbv zeta. destruct H as [H|[H|H]]; rewrite (N _ H), fmul_nan_l, ?fadd_nan_l, ?fadd_nan_r, ?fadd_nan_l; reflexivity. }
  split; [exact E|]. split; [intro tol; unfold forientation_fails, fgt; rewrite E; apply flt_nan_r|]. intros. unfold fcontiguous. rewrite E, flt_nan_l. apply andb_false_r.
Qed.
Print Assumptions distance_is_nan.
(** The heading of the quaternion 2 + 3 k. *)
Definition heading : fquat := frot (FQ (fint 2) fzero fzero (fint 3)).
(** The distance of an orientation to itself need not be 0, nor a number: a place of the road is
    then not contiguous with itself, whatever the tolerances. *)
Theorem distance_to_itself_refuted : exists q, finite (gw q) && finite (gx q) && finite (gy q) && finite (gz q) = true /\ forall acos, nan_above_one acos ->
  fdistance acos (frot q) (frot q) = fnan /\ forall p linear angular, fcontiguous acos p p (frot q) (frot q) linear angular = false.
Proof.
  exists (FQ (fint 2) fzero fzero (fint 3)). split; [reflexivity|]. intros acos N. destruct (distance_is_nan acos heading heading N) as (A & _ & B); [left; vm_compute; reflexivity|]. split; [exact A|intros; apply B].
Qed.
Print Assumptions distance_to_itself_refuted.
(** And a lane end turned upside down passes CheckInvariants, whatever the tolerance: 2 + 3 k
    and 2 i + 3 j have the same s axis and opposite h axes. *)
Theorem invariants_upside_down_refuted : exists a b, fapply (frot a) axis_h = axis_h /\ fapply (frot b) axis_h = FV (fx axis_h) (fy axis_h) (fneg (fint 1)) /\ forall acos, nan_above_one acos ->
  forall angular, forientation_fails acos (frot a) (frot b) angular = false.
Proof.
  exists (FQ (fint 2) fzero fzero (fint 3)), (FQ fzero (fint 2) (fint 3) fzero). split; [vm_compute; reflexivity|]. split; [vm_compute; reflexivity|]. intros acos N. apply (distance_is_nan acos heading (frot (FQ fzero (fint 2) (fint 3) fzero)) N). left. vm_compute. reflexivity.
Qed.
Print Assumptions invariants_upside_down_refuted.
(** The hypothesis of the theorems is met, for instance by a function that is NaN above 1 and 0
    elsewhere; there the identity is at distance 0 of itself. *)
Example acos_example : let acos := fun x => if flt (fint 1) x then fnan else fzero in nan_above_one acos /\ fdistance acos (frot (FQ (fint 1) fzero fzero fzero)) (frot (FQ (fint 1) fzero fzero fzero)) = fzero.
Proof. cbv zeta. split; [intros x ->; reflexivity|vm_compute; reflexivity]. Qed.
