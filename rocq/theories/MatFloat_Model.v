(** Model on doubles of src/maliput/math/matrix.cc: matrices as lists of rows, of dimension [n].  Indices inside the
    loops are in range, so row and col do not throw there. *)
From Coq Require Import List Bool Arith ZArith.
From Coq Require Import Floats.SpecFloat.
From Verif Require Import Base Binary64 Vectors_Model.
Import ListNotations.

Notation matrix := (list (list double)) (only parsing).
(** row: matrix.cc 75-78, col: 81-90. *)
Definition mrow (m : matrix) (i : nat) : vector := nth i m [].
Definition mcol (m : matrix) (j : nat) : vector := map (fun r => nth j r fzero) m.
(** Identity: 43-49. *)
Definition Identity (n : nat) : matrix := map (fun i => map (fun j => if i =? j then fint 1 else fzero) (seq 0 n)) (seq 0 n).
(** transpose: 93-99. *)
Definition mtranspose (n : nat) (m : matrix) : matrix := map (mcol m) (seq 0 n).
(** reduce: 102-118, in range; rows are reduced as Vector<N>::reduce does (Vectors_Model). *)
Definition mreduce (m : matrix) (i j : nat) : matrix := map (fun r => reduce_loop j r 0 true []) (firstn i m ++ skipn (S i) m).
(** determinant: 129-142, cofactor: 121-126. *)
Fixpoint mdet (n : nat) (m : matrix) : double :=
  match n with
  | O => fzero
  | S n' =>
      match n' with
      | O => nth 0 (mrow m 0) fzero
      | S O => fsub (fmul (nth 0 (mrow m 0) fzero) (nth 1 (mrow m 1) fzero)) (fmul (nth 1 (mrow m 0) fzero) (nth 0 (mrow m 1) fzero))
      | _ => fold_left (fun result j => fadd result (fmul (nth j (mrow m 0) fzero)
               (fmul (if Nat.even (0 + j) then fint 1 else fint (-1)) (mdet n' (mreduce m 0 j))))) (seq 0 n) fzero
      end
  end.
Definition mcofactor (n : nat) (m : matrix) (i j : nat) : double :=
  fmul (if Nat.even (i + j) then fint 1 else fint (-1)) (mdet (n - 1) (mreduce m i j)).
(** kTolerance: include/maliput/math/matrix.h 52. *)
Definition matrix_tolerance : double := fdiv (fint 1) (fint (10 ^ 15)).
(** is_singular: 144-146. *)
Definition msingular (n : nat) (m : matrix) : bool := flt (fabs (mdet n m)) matrix_tolerance.
(** operator* with a scalar: 250-260. *)
Definition mscale (m : matrix) (k : double) : matrix := map (fun r => vmul r k) m.
(** adjoint: 165-167 with cofactor(): 154-162; inverse: 170-174. *)
Definition madjoint (n : nat) (m : matrix) : matrix := mtranspose n (map (fun i => map (mcofactor n m i) (seq 0 n)) (seq 0 n)).
Definition minverse (n : nat) (m : matrix) : outcome matrix :=
  let d := mdet n m in throw_unless (negb (flt (fabs d) matrix_tolerance)) (Ok (mscale (madjoint n m) (fdiv (fint 1) d))).
(** operator==: 208-210. *)
Fixpoint meq (a b : matrix) : bool :=
  match a, b with [], [] => true | x :: a', y :: b' => veq x y && meq a' b' | _, _ => false end.
(** operator+: 218-222, operator-: 225-229. *)
Fixpoint mzip (f : vector -> vector -> vector) (a b : matrix) : matrix :=
  match a, b with x :: a', y :: b' => f x y :: mzip f a' b' | _, _ => [] end.
Definition madd : matrix -> matrix -> matrix := mzip vadd.
Definition msub : matrix -> matrix -> matrix := mzip vsub.
(** operator* of matrices: 232-240, with a vector: 276-283. *)
Definition mmul (n : nat) (a b : matrix) : matrix := map (fun i => map (fun j => dot (mrow a i) (mcol b j)) (seq 0 n)) (seq 0 n).
Definition mvec (n : nat) (m : matrix) (v : vector) : vector := map (fun r => inner_product (mrow m r) v fzero) (seq 0 n).
