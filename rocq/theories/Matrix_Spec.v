(** What a user knows about square matrices, independent of the library: sums over the indices,
    inverses, and the form that is linear in every row, vanishes when two rows are equal and is
    one on the identity. *)
From Coq Require Import Reals List Arith.
Local Open Scope R_scope.

Definition total (n : nat) (f : nat -> R) : R := fold_right Rplus 0 (map f (seq 0 n)).
Definition delta (i j : nat) : R := if Nat.eq_dec i j then 1 else 0.
(** The same entries. *)
Definition same_entries (n : nat) (a b : nat -> nat -> R) : Prop := forall i j, (i < n)%nat -> (j < n)%nat -> a i j = b i j.
(** [a] times [b] is the identity. *)
Definition undoes (n : nat) (a b : nat -> nat -> R) : Prop :=
  forall i j, (i < n)%nat -> (j < n)%nat -> total n (fun k => a i k * b k j) = delta i j.
(** Row [i] of [m] replaced. *)
Definition replace_row (i : nat) (u : nat -> R) (m : nat -> nat -> R) : nat -> nat -> R := fun a b => if Nat.eq_dec a i then u b else m a b.
(** The volume form: the mathematical determinant by its defining properties. *)
Record volume_form (n : nat) (D : (nat -> nat -> R) -> R) : Prop := {
  vf_entries : forall a b, same_entries n a b -> D a = D b;
  vf_add : forall i u v m, (i < n)%nat -> D (replace_row i (fun j => u j + v j) m) = D (replace_row i u m) + D (replace_row i v m);
  vf_scale : forall i k u m, (i < n)%nat -> D (replace_row i (fun j => k * u j) m) = k * D (replace_row i u m);
  vf_equal : forall m i k, (i < k)%nat -> (k < n)%nat -> (forall j, (j < n)%nat -> m i j = m k j) -> D m = 0;
  vf_one : D delta = 1 }.
