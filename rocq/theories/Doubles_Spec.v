(** Vocabulary for comparisons of doubles with tolerances.  Numbers are counted in units of 2^-1074, of which every
    finite double is a whole number: [val]. *)
From Coq Require Import List Bool ZArith.
From Verif Require Import Base Binary64 Binary64_Round Doubles_Model.
Import ListNotations.
Local Open Scope Z_scope.

(** [x] lies in the interval widened by the tolerance: exactly, and up to one part in 2^53 of its ends. *)
Definition within (x mn mx tol : double) : Prop := val mn - val tol <= val x <= val mx + val tol.
Definition nearly_within (x mn mx tol : double) : Prop :=
  2 ^ 53 * (val mn - val tol - val x) <= Z.abs (val mn - val tol) /\
  2 ^ 53 * (val x - (val mx + val tol)) <= Z.abs (val mx + val tol).

(** Boxes. *)
Definition vec_double (v : vec) : Prop := is_double (vx v) /\ is_double (vy v) /\ is_double (vz v).
Definition box_double (b : box) : Prop := vec_double (min_corner b) /\ vec_double (max_corner b) /\ is_double (tolerance b).
(** A box as the constructor makes it. *)
Definition proper (b : box) : Prop :=
  box_double b /\ 0 <= val (tolerance b) /\ val (vx (min_corner b)) <= val (vx (max_corner b)) /\
  val (vy (min_corner b)) <= val (vy (max_corner b)) /\ val (vz (min_corner b)) <= val (vz (max_corner b)).
(** A point of the box, without its tolerance; coordinates in units. *)
Definition point : Type := (Z * Z * Z)%type.
Definition inside (b : box) (p : point) : Prop :=
  let '(x, y, z) := p in
  val (vx (min_corner b)) <= x <= val (vx (max_corner b)) /\ val (vy (min_corner b)) <= y <= val (vy (max_corner b)) /\
  val (vz (min_corner b)) <= z <= val (vz (max_corner b)).
Definition at_vec (v : vec) : point := (val (vx v), val (vy v), val (vz v)).

(** Ranges. *)
Definition low (r : srange) : Z := Z.min (val (s0 r)) (val (s1 r)).
Definition high (r : srange) : Z := Z.max (val (s0 r)) (val (s1 r)).
Definition range_double (r : srange) : Prop := is_double (s0 r) /\ is_double (s1 r) /\ 0 <= val (s0 r) /\ 0 <= val (s1 r).

(** Neighbours in a list. *)
Definition neighbours {A} (l : list A) (x y : A) : Prop := exists a b, l = (a ++ x :: y :: b)%list.

(** Places of samples along a path made of ranges that are travelled from s0 to s1; [o] is where the first begins. *)
Fixpoint places (o : Z) (ranges : list srange) (samples : list (list double)) : list Z :=
  match ranges, samples with
  | r :: rs, l :: ls => (map (fun x => o + val x - val (s0 r)) l ++ places (o + val (s1 r) - val (s0 r)) rs ls)%list
  | _, _ => []
  end.
Definition path_length (ranges : list srange) : Z := fold_right (fun r t => val (s1 r) - val (s0 r) + t) 0 ranges.
