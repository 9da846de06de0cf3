(** Specification vocabulary for C104. *)
From Coq Require Import List Permutation ZArith.
From Coq Require Import Floats.SpecFloat.
From Verif Require Import Binary64 Binary64_Round Binary64_Ext.
Import ListNotations.
Local Open Scope Z_scope.

Section Points.
Variable P : Type.
Variable coord : P -> nat -> double.

(** A point whose first [n] coordinates are finite doubles. *)
Definition finite_point (n : nat) (p : P) : Prop := forall i, (i < n)%nat -> is_double (coord p i).

(** The exact squared distance, in units of 2^-2148 (the square of the unit of [val]). *)
Fixpoint exact_sq (n : nat) (a b : P) : Z :=
  match n with
  | O => 0
  | S m => exact_sq m a b + (val (coord a m) - val (coord b m)) ^ 2
  end.

(** The squared distance with every difference, product and sum rounded, coordinate after coordinate. *)
Fixpoint rounded_sq (n : nat) (a b : P) : double :=
  match n with
  | O => fzero
  | S m => fadd (rounded_sq m a b) (fmul (fsub (coord a m) (coord b m)) (fsub (coord a m) (coord b m)))
  end.

(** std::nth_element for [<] on the coordinate [i] of finite points, as the C++ standard specifies it. *)
Definition nth_element_finite (nth_element : nat -> nat -> list P -> list P) : Prop :=
  forall i k l, (k < length l)%nat ->
    Permutation l (nth_element i k l) /\
    forall a p b, nth_element i k l = a ++ p :: b -> length a = k ->
      (forall x, In x a -> val (coord x i) <= val (coord p i)) /\ (forall x, In x b -> val (coord p i) <= val (coord x i)).
End Points.
