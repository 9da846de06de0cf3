(** Models of src/maliput/common/range_validator.cc (doubles as exact rationals)
    and src/maliput/math/saturate.cc (doubles as IEEE data, standard library
    SpecFloat; only comparisons occur, so nothing is simplified there). *)
From Coq Require Import QArith Bool.
From Coq Require Import Floats.SpecFloat.
From Verif Require Import Base.
Open Scope Q_scope.

(** RangeValidator members: include/maliput/common/range_validator.h 105-108. *)
Record validator := mk_validator { v_min : Q; v_max : Q; v_tol : Q; v_eps : Q }.

(** RangeValidator::RangeValidator: range_validator.cc 49-66;
    [relative = true] is GetRelativeEpsilonValidator (41-43), [false] is
    GetAbsoluteEpsilonValidator (45-47). *)
Definition RangeValidator (relative : bool) (mn mx tol eps : Q) : outcome validator :=
  throw_unless (Qltb 0 tol)
    (let e := if relative then (mx - mn) * eps else eps in
     throw_unless (Qleb 0 e && Qleb e tol)
       (throw_unless (Qleb (mn + e) mx)
          (throw_unless (Qleb mn (mx - e)) (Ok (mk_validator mn mx tol e))))).

(** std::clamp(v, lo, hi): [v < lo ? lo : hi < v ? hi : v]; undefined if hi < lo. *)
Definition clamp (v lo hi : Q) : outcome Q :=
  if Qltb hi lo then UB else Ok (if Qltb v lo then lo else if Qltb hi v then hi else v).

(** RangeValidator::operator(): range_validator.cc 68-71. *)
Definition validate (r : validator) (s : Q) : outcome Q :=
  throw_unless (Qleb (v_min r - v_tol r) s && Qleb s (v_max r + v_tol r))
    (clamp s (v_min r + v_eps r) (v_max r - v_eps r)).

(** saturate: src/maliput/math/saturate.cc 37-42. *)
Definition saturate (x mn mx : spec_float) : outcome spec_float :=
  throw_unless (SFleb mn mx)
    (if SFltb x mn then Ok mn else if SFltb mx x then Ok mx else Ok x).
