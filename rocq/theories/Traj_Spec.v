(** What trajectories mean, stated without the functions of Traj_Model (only its data types; the
    last definitions speak of the values the API returns). *)
From Coq Require Import List QArith Qabs Arith.
From Verif Require Import Base Poly_Model Poly_Spec Traj_Model.
Import ListNotations.

(** Breaks rise. *)
Definition rising (l : list Q) : Prop := forall i, (S i < List.length l)%nat -> nth i l 0 < nth (S i) l 0.
(** Time x falls into segment i: in [b_i, b_(i+1)), the last segment closed. *)
Definition span (l : list Q) (x : Q) (i : nat) : Prop :=
  (S i < List.length l)%nat /\ nth i l 0 <= x /\ (x < nth (S i) l 0 \/ (S (S i) = List.length l /\ x == nth (S i) l 0)).
(** x is the time in [lo, hi] closest to t. *)
Definition closest (lo hi t x : Q) : Prop := (t < lo -> x == lo) /\ (hi < t -> x == hi) /\ (lo <= t -> t <= hi -> x == t).
Definition first_break (p : traj) : Q := hd 0 (breaks p).
Definition last_break (p : traj) : Q := last (breaks p) 0.

(** The polynomial of segment i at (r, c). *)
Definition entry (p : traj) (i r c : nat) : poly := m_at (nth i (polys p) (Mat 0 0 (fun _ _ => poly_zero))) r c.

(** A well-formed trajectory of R by C matrices: one polynomial matrix between every two breaks,
    entries univariate polynomials as documented. *)
Definition sound (p : traj) (R C : nat) : Prop :=
  List.length (breaks p) = S (List.length (polys p)) /\ polys p <> [] /\ rising (breaks p) /\
  Forall (fun m => m_rows m = R /\ m_cols m = C) (polys p) /\
  forall i r c, (i < List.length (polys p))%nat -> (r < R)%nat -> (c < C)%nat -> good (entry p i r c) /\ p_univ (entry p i r c) = true.
(** Every entry is written in variable v. *)
Definition in_variable (v : N) (p : traj) (R C : nat) : Prop :=
  forall i r c, (i < List.length (polys p))%nat -> (r < R)%nat -> (c < C)%nat -> Forall (only v) (p_monos (entry p i r c)).

(** A matrix of given dimensions and entries. *)
Definition is_matrix (M : mat Q) (R C : nat) (f : nat -> nat -> Q) : Prop :=
  m_rows M = R /\ m_cols M = C /\ forall r c, (r < R)%nat -> (c < C)%nat -> m_at M r c == f r c.

(** A function y of time (one entry of the trajectory) is what the segments say. *)
Definition follows (p : traj) (r c : nat) (y : Q -> Q) : Prop :=
  forall t i x, closest (first_break p) (last_break p) t x -> span (breaks p) x i -> y t == curve (entry p i r c) (x - nth i (breaks p) 0).

(** Left and right value of the k-th derivative of one entry at break i+1 agree. *)
Definition joins (p : traj) (r c k i : nat) : Prop :=
  exists f g, derives k (curve (entry p i r c)) f /\ derives k (curve (entry p (S i) r c)) g /\
    f (nth (S i) (breaks p) 0 - nth i (breaks p) 0) == g 0.

(** Row sums of a sparse system, and what it means to solve it. *)
Fixpoint row_sum (r : nat) (l : list triplet) (x : nat -> Q) : Q :=
  match l with [] => 0 | (a, c, v) :: rest => (if Nat.eqb a r then v * x c else 0) + row_sum r rest x end.
Fixpoint rhs_at (r : nat) (l : list (nat * Q)) : Q :=
  match l with [] => 0 | (a, v) :: rest => if Nat.eqb a r then v else rhs_at r rest end.
Definition solves (st : system) (x : nat -> Q) : Prop :=
  forall r, (r < s_rows st)%nat -> row_sum r (s_trips st) x == rhs_at r (s_rhs st).
(** A dense system. *)
Fixpoint dot (a b : list Q) : Q := match a, b with x :: a', y :: b' => x * y + dot a' b' | _, _ => 0 end.
Definition solves_dense (A : list (list Q)) (x b : list Q) : Prop :=
  List.length x = List.length b /\ List.length A = List.length b /\ forall i, (i < List.length b)%nat -> dot (nth i A []) x == nth i b 0.

(** Breaks far enough apart. *)
Definition spaced (l : list Q) : Prop := forall i, (S i < List.length l)%nat -> kEpsilonTime <= nth (S i) l 0 - nth i l 0.
(** Samples as the constructors want them. *)
Definition well_sampled (bs : list Q) (ys : list (mat Q)) (R C least : nat) : Prop :=
  List.length ys = List.length bs /\ (least <= List.length bs)%nat /\ (1 <= R)%nat /\ (1 <= C)%nat /\ Forall (fun y => m_rows y = R /\ m_cols y = C) ys /\ spaced bs.
(** Entries that can be integrated: Polynomial::Integral wants to know the variable. *)
Definition integrable (q : poly) : Prop := p_monos q = [] \/ exists v, occurs v q.
(** A sum of numbers. *)
Fixpoint total (l : list Q) : Q := match l with [] => 0 | a :: r => a + total r end.
(** Two R by C matrices with the same entries. *)
Definition agree (R C : nat) (M N : mat Q) : Prop :=
  m_rows M = R /\ m_cols M = C /\ m_rows N = R /\ m_cols N = C /\ forall r c, (r < R)%nat -> (c < C)%nat -> m_at M r c == m_at N r c.
(** Two trajectories over the same times. *)
Definition same_times (p q : traj) : Prop :=
  List.length (breaks q) = List.length (breaks p) /\ forall i, (i < List.length (breaks p))%nat -> nth i (breaks q) 0 == nth i (breaks p) 0.
(** Entry (r, c) of the i-th sample. *)
Definition sampled (ys : list (mat Q)) (i r c : nat) : Q := m_at (nth i ys (Mat 0 0 (fun _ _ => 0))) r c.
(** A trajectory through the samples: at every break its value is the sample. *)
Definition passes_through (p : traj) (ys : list (mat Q)) (R C : nat) : Prop :=
  forall i, (i < List.length (breaks p))%nat -> exists M, tvalue p (nth i (breaks p) 0) = Ok M /\ is_matrix M R C (sampled ys i).
(** With given slopes at the breaks. *)
Definition slopes_through (p : traj) (yds : list (mat Q)) (R C : nat) : Prop :=
  forall i, (i < List.length (breaks p))%nat -> exists M, EvalDerivative p (nth i (breaks p) 0) 1 = Ok M /\ is_matrix M R C (sampled yds i).
(** k-th derivatives join at every interior break. *)
Definition smooth (p : traj) (R C k : nat) : Prop :=
  forall i r c, (S i < List.length (polys p))%nat -> (r < R)%nat -> (c < C)%nat -> joins p r c k i.
(** Every entry of every segment is a polynomial of degree less than n. *)
Definition of_order (p : traj) (R C n : nat) : Prop :=
  forall i r c, (i < List.length (polys p))%nat -> (r < R)%nat -> (c < C)%nat -> exists l, List.length l = n /\ forall x, curve (entry p i r c) x == horner l x.
