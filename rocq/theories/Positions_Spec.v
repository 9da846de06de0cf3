(** Specification vocabulary for C10-C13. *)
From Coq Require Import List QArith.
From Verif Require Import KdTree_Model KdTree_Spec Positions_Model.
Import ListNotations.
Open Scope Q_scope.

(** All lanes of a road geometry in junction/segment/lane order. *)
Definition lanes_of (rg : geometry) : list nat := concat (concat rg).

Definition radius_ok (radius : option Q) (d : Q) : Prop :=
  match radius with None => True | Some r => d <= r end.

(** Cube of half edge [h] around [p]. *)
Definition in_cube (p c : Q * Q * Q) (h : option Q) : Prop :=
  let '(x, y, z) := p in let '(a, b, d) := c in
  match h with
  | None => True
  | Some h => (a - h <= x /\ x <= a + h) /\ (b - h <= y /\ y <= b + h) /\ (d - h <= z /\ z <= d + h)
  end.

(** A lane's sample grid: s = n*step <= length, r = min + m*step <= max. *)
Definition is_sample (lane_bounds : nat -> Q -> Q * Q) (lane_length : nat -> Q)
  (to_inertial : nat -> Q -> Q -> Q * Q * Q) (step : Q) (lane : nat) (x : Q * Q * Q) : Prop :=
  exists s r, 0 <= s /\ s <= lane_length lane /\
    (exists n : nat, s == inject_Z (Z.of_nat n) * step) /\
    (exists m : nat, r == fst (lane_bounds lane s) + inject_Z (Z.of_nat m) * step) /\
    fst (lane_bounds lane s) <= r /\ r <= snd (lane_bounds lane s) /\ x = to_inertial lane s r.
