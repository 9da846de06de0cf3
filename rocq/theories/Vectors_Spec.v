(** Specification vocabulary for C110 and C111. *)
From Coq Require Import List ZArith Ascii.
From Coq Require Import Floats.SpecFloat.
From Verif Require Import Base Binary64 Binary64_Round Binary64_Ext.
Import ListNotations.
Local Open Scope Z_scope.

(** Lists of numbers with equal values: infinities of one sign are equal, so are zeros of both signs. *)
Definition equal_numbers (a b : list double) : Prop := Forall2 (fun x y => number x /\ number y /\ place x = place y) a b.
(** Finite lists with equal values. *)
Definition equal_values (a b : list double) : Prop := Forall2 (fun x y => is_double x /\ is_double y /\ val x = val y) a b.
(** The unit vector along axis i. *)
Definition unit_vector (i k : nat) : list double := repeat fzero i ++ fint 1 :: repeat fzero k.
(** Opposite doubles; a difference of equal numbers is +0 both ways. *)
Definition opposite (a b : double) : Prop := a = fneg b \/ (a = fzero /\ b = fzero).

(** Texts with commas between them. *)
Fixpoint commas (ts : list (list ascii)) : list ascii :=
  match ts with [] => [] | [t] => t | t :: ts' => t ++ ","%char :: commas ts' end.
Definition braces (ts : list (list ascii)) : list ascii := "{"%char :: commas ts ++ ["}"%char].
(** A text that holds no comma or brace, and that [stod] reads as [x] whatever follows it after a comma or brace. *)
Definition number_text (stod : list ascii -> outcome double) (t : list ascii) (x : double) : Prop :=
  (forall c, In c t -> c <> ","%char /\ c <> "{"%char /\ c <> "}"%char) /\
  (forall rest, (rest = [] \/ exists r, rest = ","%char :: r \/ rest = "}"%char :: r) -> stod (t ++ rest) = Ok x).
