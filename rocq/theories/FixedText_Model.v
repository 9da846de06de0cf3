(** Models of how doubles are written with a fixed number of digits: src/maliput/utility/string_format.cc, and
    FormatMaterial with the materials it writes, src/maliput/utility/generate_obj.cc.  operator<< with std::fixed and
    std::setprecision writes the decimal nearest to the value, ties to even, as glibc does in its default rounding
    mode; NaN carries no sign. *)
From Coq Require Import List Bool ZArith Ascii String.
From Coq Require Import Floats.SpecFloat.
From Verif Require Import Base Binary64.
Import ListNotations.
Local Open Scope Z_scope.

Notation text := (list ascii) (only parsing).

(** A quotient of integers rounded to the nearest, ties to even. *)
Definition half_even (num den : Z) : Z :=
  let f := num / den in
  let r := num mod den in
  if 2 * r <? den then f else if den <? 2 * r then f + 1 else if Z.even f then f else f + 1.
(** m * 2^e in units of 10^-p. *)
Definition decimal_units (m e : Z) (p : nat) : Z :=
  if 0 <=? e then m * 2 ^ e * 10 ^ Z.of_nat p else half_even (m * 10 ^ Z.of_nat p) (2 ^ (- e)).

Definition digit_char (d : Z) : ascii := ascii_of_nat (48 + Z.to_nat d).
(** The last [p] digits of [n]. *)
Fixpoint last_digits (p : nat) (n : Z) (acc : text) : text :=
  match p with O => acc | S p' => last_digits p' (n / 10) (digit_char (n mod 10) :: acc) end.
(** All digits of [n], without leading zeros; [fuel] is at least their number. *)
Fixpoint all_digits (fuel : nat) (n : Z) (acc : text) : text :=
  match fuel with
  | O => acc
  | S f => if n <? 10 then digit_char n :: acc else all_digits f (n / 10) (digit_char (n mod 10) :: acc)
  end.
Definition write_units (u : Z) (p : nat) : text :=
  let whole := u / 10 ^ Z.of_nat p in
  all_digits (S (Z.to_nat (Z.log2 whole))) whole [] ++
  match p with O => [] | S _ => "."%char :: last_digits p (u mod 10 ^ Z.of_nat p) [] end.

(** operator<<(double) with std::fixed and std::setprecision(p). *)
Definition write_fixed (x : double) (p : nat) : text :=
  match x with
  | S754_nan => list_ascii_of_string "nan"
  | S754_infinity s => (if s then ["-"%char] else []) ++ list_ascii_of_string "inf"
  | S754_zero s => (if s then ["-"%char] else []) ++ write_units 0 p
  | S754_finite s m e => (if s then ["-"%char] else []) ++ write_units (decimal_units (Zpos m) e p) p
  end.

(** to_str(double, int), string_format.cc 39-44. *)
Definition to_str (value : double) (precision : Z) : outcome text :=
  if negb (0 <=? precision) then Throw else Ok (write_fixed value (Z.to_nat precision)).

(** ** FormatMaterial, generate_obj.cc *)

(** std::to_string(double), "%f": six digits. *)
Definition to_string (x : double) : text := write_fixed x 6.
Definition txt (s : string) : text := list_ascii_of_string s.
Definition newline : text := [ascii_of_nat 10].
(** A literal n / d: the double nearest to it. *)
Definition lit (n d : Z) : double := fdiv (fint n) (fint d).

(** Material, include/maliput/utility/generate_obj.h 107-118. *)
Record material := mk_material {
  m_name : string; ambient : double * double * double; diffuse : double * double * double;
  specular : double * double * double; shininess : double; transparency : double }.

(** kMaterial, generate_obj.cc 77-88, with the names of 64-72. *)
Definition row (a b c : Z) : double * double * double := (lit a 10, lit b 10, lit c 10).
Definition kMaterial : list material :=
  [ mk_material "bland_asphalt" (row 2 2 2) (row 1 1 1) (row 3 3 3) (lit 101 10) (lit 0 10);
    mk_material "lane_haze" (row 9 9 9) (row 9 9 9) (row 9 9 9) (lit 101 10) (lit 8 10);
    mk_material "marker_paint" (row 8 8 0) (row 10 10 0) (row 10 10 5) (lit 101 10) (lit 5 10);
    mk_material "h_bounds_haze" (row 0 0 10) (row 0 0 10) (row 0 0 10) (lit 101 10) (lit 8 10);
    mk_material "branch_point_glow" (row 0 0 10) (row 0 0 10) (row 0 0 10) (lit 101 10) (lit 9 10);
    mk_material "grayed_bland_asphalt" (row 1 1 1) (row 2 2 2) (row 3 3 3) (lit 101 10) (lit 9 10);
    mk_material "grayed_lane_haze" (row 9 9 9) (row 9 9 9) (row 9 9 9) (lit 101 10) (lit 9 10);
    mk_material "grayed_marker_paint" (row 8 8 0) (row 10 10 0) (row 10 10 5) (lit 101 10) (lit 9 10);
    mk_material "sidewalk" (row 8 8 0) (row 10 10 0) (row 10 10 5) (lit 101 10) (lit 9 10) ].

(** FormatVector3AsRow, generate_obj.cc 90-92. *)
Definition FormatVector3AsRow (v : double * double * double) : text :=
  let '(x, y, z) := v in to_string x ++ txt " " ++ to_string y ++ txt " " ++ to_string z.
(** FormatMaterial, generate_obj.cc 94-99. *)
Definition FormatMaterial (mat : material) (precision : Z) : outcome text :=
  obind (to_str (fsub (fint 1) (transparency mat)) precision) (fun d =>
    Ok (txt "newmtl " ++ txt (m_name mat) ++ newline ++ txt "Ka " ++ FormatVector3AsRow (ambient mat) ++ newline ++
        txt "Kd " ++ FormatVector3AsRow (diffuse mat) ++ newline ++ txt "Ks " ++ FormatVector3AsRow (specular mat) ++ newline ++
        txt "Ns " ++ to_string (shininess mat) ++ newline ++ txt "illum 2" ++ newline ++ txt "d " ++ d ++ newline)).
