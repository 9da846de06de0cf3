(** Specification vocabulary for C105. *)
From Coq Require Import List ZArith.
From Verif Require Import Binary64 Binary64_Round Binary64_Ext Doubles_Model.
Import ListNotations.
Local Open Scope Z_scope.

(** A box without NaN, with ordered corners and a finite tolerance that is not negative; corners may be infinite. *)
Definition vec_number (v : vec) : Prop := number (vx v) /\ number (vy v) /\ number (vz v).
Definition region_ok (b : box) : Prop :=
  vec_number (min_corner b) /\ vec_number (max_corner b) /\ is_double (tolerance b) /\ 0 <= val (tolerance b) /\
  place (vx (min_corner b)) <= place (vx (max_corner b)) /\ place (vy (min_corner b)) <= place (vy (max_corner b)) /\
  place (vz (min_corner b)) <= place (vz (max_corner b)).
(** A vector between the corners, without tolerance. *)
Definition between_corners (b : box) (v : vec) : Prop :=
  place (vx (min_corner b)) <= place (vx v) <= place (vx (max_corner b)) /\
  place (vy (min_corner b)) <= place (vy v) <= place (vy (max_corner b)) /\
  place (vz (min_corner b)) <= place (vz v) <= place (vz (max_corner b)).
(** Kept in order. *)
Inductive sublist {P : Type} : list P -> list P -> Prop :=
| sublist_nil : forall l, sublist [] l
| sublist_skip : forall x a b, sublist a b -> sublist a (x :: b)
| sublist_take : forall x a b, sublist a b -> sublist (x :: a) (x :: b).
