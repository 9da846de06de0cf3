(** Model of src/maliput/api/regions.cc and include/maliput/api/regions.h.
    Simplification: doubles are exact rationals, rounding is not modelled; lane
    ids are natural numbers with decidable equality. *)
From Coq Require Import List QArith Qabs Bool Arith.
From Verif Require Import Base.
Import ListNotations.
Open Scope Q_scope.

(** SRange data members: include/maliput/api/regions.h 46-127. *)
Record srange := mk_srange { s0 : Q; s1 : Q }.

(** SRange::SRange(s0,s1): src/maliput/api/regions.cc 66-69. *)
Definition SRange (a b : Q) : outcome srange :=
  throw_unless (Qleb 0 a) (throw_unless (Qleb 0 b) (Ok (mk_srange a b))).

(** SRange::set_s0, set_s1: regions.cc 71-79. *)
Definition set_s0 (r : srange) (v : Q) : outcome srange :=
  throw_unless (Qleb 0 v) (Ok (mk_srange v (s1 r))).
Definition set_s1 (r : srange) (v : Q) : outcome srange :=
  throw_unless (Qleb 0 v) (Ok (mk_srange (s0 r) v)).

(** SRange::size: regions.h 86. *)
Definition size (r : srange) : Q := Qabs (s1 r - s0 r).
(** SRange::WithS: regions.h 91. *)
Definition WithS (r : srange) : bool := Qltb (s0 r) (s1 r).

(** The two preconditions shared by Intersects and Contains: regions.cc 82-86, 93-97. *)
Definition range_pre (r o : srange) (tol : Q) : bool :=
  (Qleb 0 (cmin (s0 r) (s1 r)) && Qleb 0 (cmin (s0 o) (s1 o)))
  && (if Qltb tol 0 then Qleb (Qabs tol) (cmin (size r) (size o) / 2) else true).

(** [wider_s_range]: regions.cc 87 and 107. *)
Definition wider (r : srange) (tol : Q) : outcome srange :=
  SRange (cmax (cmin (s0 r) (s1 r) - tol) 0) (cmax (s0 r) (s1 r) + tol).

(** SRange::Intersects: regions.cc 81-90. *)
Definition Intersects (r o : srange) (tol : Q) : outcome bool :=
  throw_unless (range_pre r o tol)
    (obind (wider r tol) (fun w =>
       Ok (negb (Qltb (cmax (s0 o) (s1 o)) (s0 w) || Qltb (s1 w) (cmin (s0 o) (s1 o)))))).

(** SRange::Contains: regions.cc 92-103. *)
Definition Contains (r o : srange) (tol : Q) : outcome bool :=
  throw_unless (range_pre r o tol)
    (let lo := cmax (if WithS r then s0 r - tol else s1 r - tol) 0 in
     let hi := if WithS r then s1 r + tol else s0 r + tol in
     Ok ((Qleb (s1 o) hi && Qleb lo (s1 o)) && (Qleb (s0 o) hi && Qleb lo (s0 o)))).

(** SRange::GetIntersection: regions.cc 105-118. *)
Definition GetIntersection (r o : srange) (tol : Q) : outcome (option srange) :=
  obind (Intersects r o tol) (fun b =>
    if b then
      obind (wider r tol) (fun w =>
        let mx := if Qleb (s1 w) (cmax (s0 o) (s1 o)) then cmax (s0 r) (s1 r) else cmax (s0 o) (s1 o) in
        let mn := if Qleb (cmin (s0 o) (s1 o)) (s0 w) then cmin (s0 r) (s1 r) else cmin (s0 o) (s1 o) in
        obind (SRange mn mx) (fun i => Ok (Some i)))
    else Ok None).

(** LaneSRange: regions.h 130-190. *)
Record lsrange := mk_lsrange { lane_id : nat; s_range : srange }.

(** LaneSRange::Intersects, Contains, GetIntersection: regions.cc 120-135. *)
Definition LIntersects (a b : lsrange) (tol : Q) : outcome bool :=
  if Nat.eqb (lane_id a) (lane_id b) then Intersects (s_range a) (s_range b) tol else Ok false.
Definition LContains (a b : lsrange) (tol : Q) : outcome bool :=
  if Nat.eqb (lane_id a) (lane_id b) then Contains (s_range a) (s_range b) tol else Ok false.
Definition LGetIntersection (a b : lsrange) (tol : Q) : outcome (option lsrange) :=
  obind (LIntersects a b tol) (fun x =>
    if x then
      obind (GetIntersection (s_range a) (s_range b) tol) (fun i =>
        match i with
        | Some i => Ok (Some (mk_lsrange (lane_id a) i))
        | None => Throw                                    (* THROW_UNLESS(has_value) *)
        end)
    else Ok None).

(** LaneSRange::length: regions.h 153; LaneSRoute::length: regions.h 220-223. *)
Definition route_length (rs : list lsrange) : Q :=
  fold_left (fun acc r => acc + size (s_range r)) rs 0.

(** LaneSRoute::Intersects: regions.cc 137-149 (routes are their range vectors). *)
Fixpoint RIntersects (a b : list lsrange) (tol : Q) : outcome bool :=
  match a with
  | [] => Ok false
  | r :: a' =>
      match find (fun x => Nat.eqb (lane_id r) (lane_id x)) b with
      | Some x => obind (LIntersects r x tol) (fun h => if h then Ok true else RIntersects a' b tol)
      | None => RIntersects a' b tol
      end
  end.

(** IsIncluded: regions.cc 151-168.  [to_lane l] is what
    [ById().GetLane(l)->ToLanePosition(inertial_position)] gives: [None] when the
    lane does not exist, otherwise (distance, s).  The null check of
    [road_geometry] is not modelled (there is no null geometry here). *)
Section IsIncluded.
Variable to_lane : nat -> option (Q * Q).
Variable linear_tolerance : Q.

Fixpoint included_loop (rs : list lsrange) : outcome bool :=
  match rs with
  | [] => Ok false
  | r :: rs' =>
      match to_lane (lane_id r) with
      | None => UB                                        (* null dereference *)
      | Some (d, s) =>
          if Qleb d linear_tolerance then
            obind (SRange s s) (fun p => Intersects (s_range r) p linear_tolerance)
          else included_loop rs'
      end
  end.

Definition IsIncluded (rs : list lsrange) : outcome bool :=
  throw_unless (match rs with [] => false | _ => true end)
    (throw_unless (forallb (fun r => match to_lane (lane_id r) with Some _ => true | None => false end) rs)
       (included_loop rs)).
End IsIncluded.
