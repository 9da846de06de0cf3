(** Specification vocabulary for C50 and C62. *)
From Coq Require Import List QArith Qabs Bool.
From Verif Require Import Base RoadMesh_Model.
Import ListNotations.
Local Open Scope Q_scope.

(** A point of the (s, r) plane in a face: a weighted mean of its vertices. *)
Fixpoint total (ws : list Q) : Q := match ws with [] => 0 | w :: ws' => w + total ws' end.
Fixpoint mean (ws xs : list Q) : Q := match ws, xs with w :: ws', x :: xs' => w * x + mean ws' xs' | _, _ => 0 end.
Definition s_of (v : srh) : Q := fst (fst v).
Definition r_of (v : srh) : Q := snd (fst v).
Definition h_of (v : srh) : Q := snd v.
Definition weighted (f : face) (ws : list Q) (s r : Q) : Prop := length ws = length f /\ total ws == 1 /\ mean ws (map s_of f) == s /\ mean ws (map r_of f) == r.
Definition in_face (f : face) (s r : Q) : Prop := exists ws, Forall (fun w => 0 <= w) ws /\ weighted f ws s r.
Definition inside_face (f : face) (s r : Q) : Prop := exists ws, Forall (fun w => 0 < w) ws /\ weighted f ws s r.
(** No two faces have an inner point in common. *)
Definition no_overlap (fs : list face) : Prop := ForallOrdPairs (fun f g => forall s r, inside_face f s r -> ~ inside_face g s r) fs.

(** A lane with its bounds: [lo] <= 0 <= [hi]. *)
Definition proper (b : Q -> rbounds) : Prop := forall s, rmin (b s) <= 0 <= rmax (b s).
Definition between (t a b : Q) : Q := a + t * (b - a).
(** The position (s, r) lies within the bounds [b] of a lane of length [len]. *)
Definition on_surface (b : Q -> rbounds) (len s r : Q) : Prop := 0 <= s <= len /\ rmin (b s) <= r <= rmax (b s).
(** [r] is within the bounds at all stations no further than [reach] from [s]; when [r] is on
    the centre line, one side of the lane has a positive width there. *)
Definition clear_of (b : Q -> rbounds) (len reach s r : Q) : Prop :=
  (forall s', 0 <= s' <= len -> Qabs (s' - s) <= reach -> rmin (b s') <= r <= rmax (b s')) /\
  (~ r == 0 \/ (forall s', 0 <= s' <= len -> Qabs (s' - s) <= reach -> 0 < rmax (b s')) \/ (forall s', 0 <= s' <= len -> Qabs (s' - s) <= reach -> rmin (b s') < 0)).
(** Twice the signed area (positive when the vertices go round counterclockwise in the
    (s, r) plane, that is, when the face is seen from above). *)
Fixpoint sweep (first : srh) (f : face) : Q :=
  match f with
  | [] => 0
  | v :: f' => let w := match f' with [] => first | w :: _ => w end in (s_of v * r_of w - s_of w * r_of v) + sweep first f'
  end.
Definition twice_area (f : face) : Q := match f with [] => 0 | v :: _ => sweep v f end.
(** The faces fill exactly the triangle with its base at [base], 80% of the bounds there wide,
    and its tip [size] further on the centre line. *)
Definition fills_triangle (l : lane) (base size h : Q) (fs : list face) : Prop :=
  (forall f v, In f fs -> In v f -> h_of v = h /\ exists i j, 0 <= i /\ 0 <= j /\ i + j <= 1 /\ s_of v == base + i * size /\ (r_of v == j * ((8 # 10) * rmax (lane_bounds l base)) \/ r_of v == j * ((8 # 10) * rmin (lane_bounds l base)))) /\
  (forall i j, 0 <= i -> 0 <= j -> i + j <= 1 -> (exists f, In f fs /\ in_face f (base + i * size) (j * ((8 # 10) * rmax (lane_bounds l base)))) /\ (exists f, In f fs /\ in_face f (base + i * size) (j * ((8 # 10) * rmin (lane_bounds l base))))).
