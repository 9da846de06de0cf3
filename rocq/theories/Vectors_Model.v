(** Models of the vectors of doubles, src/maliput/math/vector.cc: VectorBase<N, Derived>, Vector<N> and
    Vector3::cross.  A vector of dimension N is a list of N doubles; NaN carries no payload. *)
From Coq Require Import List Bool Arith ZArith Ascii.
From Coq Require Import Floats.SpecFloat.
From Verif Require Import Base Binary64.
Import ListNotations.

Notation vector := (list double) (only parsing).
(** operator== on doubles. *)
Definition feq (a b : double) : bool := SFeqb a b.
(** Ones: vector.cc 41-45, Zero: 48-52; the default constructor: 92-94. *)
Definition Ones (n : nat) : vector := repeat (fint 1) n.
Definition Zero (n : nat) : vector := repeat fzero n.
(** VectorBase(std::initializer_list<double>): 102-105. *)
Definition Vector (n : nat) (values : list double) : outcome vector :=
  throw_unless (List.length values =? n) (Ok values).
(** std::inner_product(first1, last1, first2, init): init = init + *first1 * *first2. *)
Fixpoint inner_product (a b : vector) (init : double) : double :=
  match a, b with
  | x :: a', y :: b' => inner_product a' b' (fadd init (fmul x y))
  | _, _ => init
  end.
(** dot: 108-110. *)
Definition dot (this v : vector) : double := inner_product v this fzero.
(** norm: 113-115. *)
Definition norm (this : vector) : double := fsqrt (inner_product this this fzero).
(** operator/: 202-206. *)
Definition vdiv (v : vector) (scalar : double) : vector := map (fun value => fdiv value scalar) v.
(** normalize: 118-121, normalized: 124-126. *)
Definition normalized (v : vector) : vector := vdiv v (norm v).
(** operator[]: 156-167. *)
Definition at_index (n : nat) (v : vector) (index : nat) : outcome double :=
  throw_unless (index <? n) (match nth_error v index with Some x => Ok x | None => UB end).
(** std::transform of two ranges. *)
Fixpoint transform (f : double -> double -> double) (a b : vector) : vector :=
  match a, b with x :: a', y :: b' => f x y :: transform f a' b' | _, _ => [] end.
(** operator==: 170-172; std::equal. *)
Fixpoint veq (a b : vector) : bool :=
  match a, b with [], [] => true | x :: a', y :: b' => feq x y && veq a' b' | _, _ => false end.
(** operator+: 180-184, operator+=: 187-192, operator-: 195-199. *)
Definition vadd : vector -> vector -> vector := transform fadd.
Definition vsub : vector -> vector -> vector := transform fsub.
(** operator*: 209-219. *)
Definition vmul (v : vector) (scalar : double) : vector := map (fun value => fmul value scalar) v.
(** Vector<N>::reduce: 228-243; [count] is count_elements, [reduced] the elements written so far in their order; writing
    past the array is undefined. *)
Fixpoint reduce_loop (index : nat) (values : vector) (count : nat) (remove : bool) (reduced : vector) : vector :=
  match values with
  | [] => reduced
  | value :: rest =>
      if remove && (count =? index) then reduce_loop index rest count false reduced
      else reduce_loop index rest (count + 1) remove (reduced ++ [value])
  end.
Definition reduce (n : nat) (v : vector) (index : nat) : outcome vector :=
  throw_unless (2 <=? n) (throw_unless (index <? n)
    (let r := reduce_loop index v 0 true [] in if List.length r <=? n - 1 then Ok r else UB)).
(** Vector3::cross: 255-257. *)
Definition cross (a v : double * double * double) : double * double * double :=
  let '(x, y, z) := a in let '(vx, vy, vz) := v in
  (fsub (fmul y vz) (fmul z vy), fsub (fmul z vx) (fmul x vz), fsub (fmul x vy) (fmul y vx)).

(** ** FromStr *)
Local Open Scope Z_scope.
(** std::size_t, 64 bits; npos. *)
Definition npos : Z := 2 ^ 64 - 1.
Definition size_t (z : Z) : Z := z mod 2 ^ 64.
Notation text := (list ascii) (only parsing).
(** std::count. *)
Definition count (c : ascii) (s : text) : nat := List.length (filter (Ascii.eqb c) s).
(** std::string::find_first_of(c, pos). *)
Fixpoint find_at (c : ascii) (s : text) (i pos : Z) : Z :=
  match s with
  | [] => npos
  | x :: s' => if (pos <=? i) && Ascii.eqb c x then i else find_at c s' (i + 1) pos
  end.
Definition find_first_of (s : text) (c : ascii) (pos : Z) : Z := find_at c s 0 pos.
(** std::string::substr(pos, len): std::out_of_range if pos > size. *)
Definition substr (s : text) (pos len : Z) : outcome text :=
  throw_unless (pos <=? Z.of_nat (List.length s)) (Ok (firstn (Z.to_nat (Z.min len (Z.of_nat (List.length s)))) (skipn (Z.to_nat pos) s))).

Section FromStr.
(** std::stod. *)
Variable stod : text -> outcome double.
(** The loop: vector.cc 73-87, from component [i] of [n] on; [k] components are left. *)
Fixpoint from_str_loop (s : text) (n i k : nat) (previous : Z) : outcome vector :=
  match k with
  | O => Ok []
  | S k' =>
      let comma := find_first_of s "," (size_t (previous + 1)) in
      obind (if (i =? n - 1)%nat then substr s (size_t (previous + 1)) (size_t (find_first_of s "}" 0 - 1))
             else substr s (size_t (previous + 1)) (size_t (comma - 1))) (fun value_str =>
      obind (stod value_str) (fun x =>
      omap (cons x) (from_str_loop s n (i + 1) k' comma)))
  end.
(** FromStr: 55-89. *)
Definition FromStr (n : nat) (s : text) : outcome vector :=
  throw_unless (count "{" s =? 1)%nat (throw_unless (count "}" s =? 1)%nat (throw_unless (count "," s =? n - 1)%nat
  (if (n =? 1)%nat then obind (substr s 1 (size_t (find_first_of s "}" 0 - 1))) (fun t => obind (stod t) (fun x => Ok [x]))
   else from_str_loop s n 0 n 0))).
End FromStr.

(** to_str: vector.cc 129-141; [print] is operator<< of a double with 15 digits. *)
Fixpoint to_str_loop (print : double -> text) (i : nat) (v : vector) : text :=
  match v with
  | [] => []
  | x :: v' => (if (i =? 0)%nat then [] else [","; " "]%char) ++ print x ++ to_str_loop print (i + 1) v'
  end.
Definition to_str (print : double -> text) (v : vector) : text := ["{"%char] ++ to_str_loop print 0 v ++ ["}"%char].
