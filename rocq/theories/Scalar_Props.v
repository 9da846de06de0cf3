(** C20, C21: RangeValidator and saturate. *)
From Coq Require Import ZArith QArith Qabs Bool Lia Lqa.
From Coq Require Import Floats.SpecFloat.
From Verif Require Import Base Scalar_Model Scalar_Spec Scalar_Proofs.
Open Scope Q_scope.

(** C20.  The constructor accepts exactly: positive tolerance, epsilon (scaled by
    the range for the relative flavour) in [0, tolerance] and at most max - min. *)
Theorem range_validator_constructor :
  forall (relative : bool) mn mx tol eps,
  let e := if relative then (mx - mn) * eps else eps in
  (0 < tol /\ 0 <= e /\ e <= tol /\ e <= mx - mn /\ RangeValidator relative mn mx tol eps = Ok (mk_validator mn mx tol e)) \/
  (~ (0 < tol /\ 0 <= e /\ e <= tol /\ e <= mx - mn) /\ RangeValidator relative mn mx tol eps = Throw).
Proof. exact RangeValidator_outcome. Qed.
Print Assumptions range_validator_constructor.

(** C20.  Partial: for a validator whose epsilon is at most half the range (what is
    missing are the validators of the refutation below).  The call throws exactly
    outside [min - tol, max + tol]; otherwise it returns the point of
    [min + eps, max - eps] nearest to s, s itself when s lies in it. *)
Theorem range_validator_clamps_partial :
  forall (relative : bool) mn mx tol eps r s, RangeValidator relative mn mx tol eps = Ok r ->
  let e := if relative then (mx - mn) * eps else eps in
  2 * e <= mx - mn ->
  (mn - tol <= s /\ s <= mx + tol /\
   exists x, validate r s = Ok x /\ mn + e <= x /\ x <= mx - e /\
     (mn + e <= s -> s <= mx - e -> x = s) /\
     forall y, mn + e <= y -> y <= mx - e -> Qabs (s - x) <= Qabs (s - y)) \/
  (~ (mn - tol <= s /\ s <= mx + tol) /\ validate r s = Throw).
Proof.
  intros relative mn mx tol eps r s E e H.
  destruct (RangeValidator_outcome relative mn mx tol eps) as [(_ & _ & _ & _ & E')|(_ & E')]; rewrite E' in E; [|discriminate].
  inversion E; subst r. exact (validate_ok (mk_validator mn mx tol e) s H).
Qed.
Print Assumptions range_validator_clamps_partial.

(** C20.  A relative epsilon of at most one half always satisfies the condition. *)
Theorem range_validator_relative_half :
  forall mn mx tol eps r, RangeValidator true mn mx tol eps = Ok r -> eps <= 1 # 2 ->
  2 * ((mx - mn) * eps) <= mx - mn.
Proof.
  intros mn mx tol eps r E H. apply RangeValidator_ok in E.
  destruct E as (_ & _ & _ & E & _ & A & _ & B). cbn in E. nra.
Qed.
Print Assumptions range_validator_relative_half.

Example C20_example :
  exists r, RangeValidator true 0 100 (1#10) (1#1000) = Ok r /\
    validate r 50 = Ok 50 /\ validate r (-(1#20)) = Ok (0 + (100 - 0) * (1#1000)) /\ validate r (-1) = Throw.
Proof. eexists. repeat split. Qed.

(** Finding: the constructor only checks min + eps <= max, so an epsilon between
    half the range and the range is accepted, and then every call with s within
    tolerance evaluates std::clamp with inverted bounds, which is undefined. *)
Theorem range_validator_inverted_clamp_refuted :
  exists mn mx tol eps r, RangeValidator false mn mx tol eps = Ok r /\ mn < mx /\
    forall s, mn - tol <= s -> s <= mx + tol -> validate r s = UB.
Proof.
  exists 0, 1, 1, (8#10), (mk_validator 0 1 1 (8#10)). split; [reflexivity|]. split; [lra|].
  intros s H1 H2. unfold validate, throw_unless. cbn [v_min v_max v_tol v_eps].
  destruct (Qleb_spec (0 - 1) s); [|lra]. destruct (Qleb_spec s (1 + 1)); [|lra]. reflexivity.
Qed.
Print Assumptions range_validator_inverted_clamp_refuted.

(** C21.  On all IEEE doubles: throws exactly when not min <= max; NaN stays NaN;
    otherwise the result is in [min,max], is x when x is in it, and lies between x
    and every double of [min,max], hence is the closest one. *)
Theorem saturate_clamps :
  forall x mn mx, is_double x -> is_double mn -> is_double mx ->
  (~ le_double mn mx /\ saturate x mn mx = Throw) \/
  (le_double mn mx /\ exists r, saturate x mn mx = Ok r /\
     (value x = None -> r = x) /\
     (value x <> None ->
        le_double mn r /\ le_double r mx /\
        (le_double mn x -> le_double x mx -> r = x) /\
        forall y, is_double y -> le_double mn y -> le_double y mx ->
          (le_double x r /\ le_double r y) \/ (le_double y r /\ le_double r x))).
Proof. exact saturate_ok. Qed.
Print Assumptions saturate_clamps.

(** The comparisons of the standard library's IEEE data agree with the numbers. *)
Theorem double_comparisons_numeric :
  forall x y, is_double x -> is_double y -> (SFleb x y = true <-> le_double x y).
Proof. exact SFleb_value. Qed.
Print Assumptions double_comparisons_numeric.

(** 1.5, 2 and infinity as doubles. *)
Definition d1_5 := S754_finite false 6755399441055744 (-52).
Definition d2 := S754_finite false 4503599627370496 (-51).
Example C21_example : is_double d1_5 /\ is_double d2 /\ le_double d1_5 d2 /\
  saturate (S754_infinity false) d1_5 d2 = Ok d2 /\ saturate S754_nan d1_5 d2 = Ok S754_nan /\
  saturate (S754_zero true) d1_5 d2 = Ok d1_5 /\ saturate d2 d1_5 S754_nan = Throw.
Proof.
  repeat split. eexists. eexists. split; [reflexivity|]. split; [reflexivity|]. vm_compute. discriminate.
Qed.
