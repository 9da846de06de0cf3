(** Models of src/maliput/math/matrix.cc.  Entries are exact real numbers (no rounding, no
    infinities); a matrix is given by its entries, those with indices below its size N. *)
From Coq Require Import Reals Arith.
From Verif Require Import Base.
Local Open Scope R_scope.

Definition mat : Type := nat -> nat -> R.
(** std::inner_product: the sum of [f] at 0 .. n - 1. *)
Fixpoint sum (n : nat) (f : nat -> R) : R := match n with O => 0 | S k => sum k f + f k end.
(** Matrix::kTolerance, include/maliput/math/matrix.h 52. *)
Definition mtol : R := 1 / 10 ^ 15.
(** Matrix::Identity, matrix.cc 42-49. *)
Definition identity : mat := fun i j => if Nat.eqb i j then 1 else 0.
(** Matrix::transpose, 92-99. *)
Definition transpose (m : mat) : mat := fun i j => m j i.
(** Matrix::reduce, 101-118, with Vector::reduce. *)
Definition skip (r i : nat) : nat := if Nat.ltb i r then i else S i.
Definition reduce (m : mat) (r c : nat) : mat := fun i j => m (skip r i) (skip c j).
(** The sign in cofactor, 125. *)
Definition sgn (k : nat) : R := if Nat.eqb (Nat.modulo k 2) 0 then 1 else - 1.
(** Matrix::determinant, 128-141 (with cofactor, 120-126, for the first row). *)
Fixpoint determinant (n : nat) (m : mat) : R :=
  match n with
  | O => 0
  | S k => match k with
      | O => m 0%nat 0%nat
      | S O => m 0%nat 0%nat * m 1%nat 1%nat - m 0%nat 1%nat * m 1%nat 0%nat
      | _ => sum (S k) (fun j => m 0%nat j * (sgn (0 + j) * determinant k (reduce m 0 j)))
      end
  end.
(** Matrix::cofactor(row, col), 120-126. *)
Definition cofactor (n : nat) (m : mat) (r c : nat) : R := sgn (r + c) * determinant (n - 1) (reduce m r c).
(** Matrix::is_singular, 143-146. *)
Definition is_singular (n : nat) (m : mat) : bool := if Rlt_dec (Rabs (determinant n m)) mtol then true else false.
(** Matrix::adjoint, 164-167, with cofactor(), 153-162. *)
Definition adjoint (n : nat) (m : mat) : mat := transpose (fun i j => cofactor n m i j).
(** operator*(double, Matrix), 249-260. *)
Definition scale (k : R) (m : mat) : mat := fun i j => m i j * k.
(** Matrix::inverse, 169-174. *)
Definition inverse (n : nat) (m : mat) : outcome mat :=
  let d := determinant n m in if Rlt_dec (Rabs d) mtol then Throw else Ok (scale (1 / d) (adjoint n m)).
(** operator*(Matrix, Matrix), 231-240; operator*(Matrix, Vector), 275-283; +, 212-217. *)
Definition mul (n : nat) (a b : mat) : mat := fun i j => sum n (fun k => a i k * b k j).
Definition mul_vec (n : nat) (a : mat) (v : nat -> R) : nat -> R := fun i => sum n (fun k => a i k * v k).
Definition madd (a b : mat) : mat := fun i j => a i j + b i j.
