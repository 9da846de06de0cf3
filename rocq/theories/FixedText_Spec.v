(** What a decimal text says, independently of how it is written. *)
From Coq Require Import List Bool ZArith Ascii.
From Coq Require Import Floats.SpecFloat.
From Verif Require Import Binary64 Binary64_Round.
Import ListNotations.
Local Open Scope Z_scope.

(** The digit a character stands for. *)
Definition digit_of (c : ascii) : Z := Z.of_nat (nat_of_ascii c) - 48.
Definition is_digit (c : ascii) : Prop := 0 <= digit_of c <= 9.
(** The number a row of digits stands for. *)
Definition number (ds : list ascii) : Z := fold_left (fun n c => 10 * n + digit_of c) ds 0.

(** [s] is a decimal with [p] digits after the point, a sign exactly when [neg], no needless zeros in front, and
    stands for [u] units of 10^-p. *)
Definition tells (s : list ascii) (neg : bool) (u : Z) (p : nat) : Prop :=
  exists whole frac,
    s = (if neg then ["-"%char] else []) ++ whole ++ (match p with O => [] | S _ => "."%char :: frac end) /\
    Forall is_digit whole /\ Forall is_digit frac /\ whole <> [] /\ List.length frac = p /\
    (forall c r, whole = "0"%char :: c :: r -> False) /\
    number (whole ++ frac) = u.
(** The value told, with its sign. *)
Definition signed (neg : bool) (u : Z) : Z := if neg then - u else u.

(** The sign bit. *)
Definition sign_bit (x : double) : bool :=
  match x with S754_zero s | S754_infinity s | S754_finite s _ _ => s | S754_nan => false end.

(** [u] units of 10^-p are as near to |x| as any number of units; of two, the even one. *)
Definition nearest_units (x : double) (p : nat) (u : Z) : Prop :=
  let v := Z.abs (val x) * 10 ^ Z.of_nat p in
  (forall w, Z.abs (v - u * 2 ^ 1074) <= Z.abs (v - w * 2 ^ 1074)) /\
  (forall w, w <> u -> Z.abs (v - u * 2 ^ 1074) = Z.abs (v - w * 2 ^ 1074) -> Z.even u = true).

(** [s] is the decimal nearest to [x] with [p] digits after the point. *)
Definition shows (s : list ascii) (x : double) (p : nat) : Prop := exists u, tells s (sign_bit x) u p /\ nearest_units x p u.
(** Texts of three numbers in a row, with one space between them, and lines ended by a line feed. *)
Definition row_shows (s : list ascii) (v : double * double * double) (p : nat) : Prop :=
  exists a b c, s = a ++ [" "%char] ++ b ++ [" "%char] ++ c /\ shows a (fst (fst v)) p /\ shows b (snd (fst v)) p /\ shows c (snd v) p.
Definition lines (ls : list (list ascii)) : list ascii := flat_map (fun l => l ++ [ascii_of_nat 10]) ls.
Definition finite3 (v : double * double * double) : Prop := is_double (fst (fst v)) /\ is_double (snd (fst v)) /\ is_double (snd v).
