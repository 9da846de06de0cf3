(** Specification vocabulary for C112. *)
From Coq Require Import List ZArith.
From Verif Require Import Binary64 Binary64_Round.
Import ListNotations.

(** n rows of n entries. *)
Definition square (n : nat) (m : list (list double)) : Prop := List.length m = n /\ Forall (fun r : list double => List.length r = n) m.
(** Entry (i, j). *)
Definition entry (m : list (list double)) (i j : nat) : double := nth j (nth i m []) fzero.
Definition all_finite (m : list (list double)) : Prop := Forall (Forall is_double) m.
