(** What an integrator promises, stated without its functions: Runge-Kutta steps by their tableau,
    paths of steps, primitives, dense outputs as functions. *)
From Coq Require Import Reals List.
Import ListNotations.
Local Open Scope R_scope.

(** The right hand side of an ODE, [None] where it is NaN, keeps the dimension of states of dimension n. *)
Definition keeps_dimension (n : nat) (f : list R -> R -> list R -> option (list R)) : Prop :=
  forall k t x d, length x = n -> f k t x = Some d -> length d = n.

(** The state reached from x along derivatives: x + a1 d1 + a2 d2 + ... *)
Definition combination (x : list R) (terms : list (R * list R)) (y : list R) : Prop :=
  length y = length x /\
  forall i, nth i y 0 = nth i x 0 + fold_right (fun ad acc => fst ad * nth i (snd ad) 0 + acc) 0 terms.

(** e is the largest absolute component difference of y and z. *)
Definition largest_difference (y z : list R) (e : R) : Prop :=
  (forall i, Rabs (nth i y 0 - nth i z 0) <= e) /\ exists i, Rabs (nth i y 0 - nth i z 0) = e.

(** One step of Kutta's third order method (nodes 0, 1/2, 1; weights 1/6, 2/3, 1/6) of size h, with
    the second order (midpoint) result as the comparison that gives the error estimate e. *)
Definition kutta_step (f : list R -> R -> list R -> option (list R)) (k : list R) (t h : R) (x x1 : list R) (e : R) : Prop :=
  exists d0 da db xa xb mid,
    f k t x = Some d0 /\
    combination x [(h / 2, d0)] xa /\ f k (t + h / 2) xa = Some da /\
    combination x [(- h, d0); (2 * h, da)] xb /\ f k (t + h) xb = Some db /\
    combination x [(h / 6, d0); (2 / 3 * h, da); (h / 6, db)] x1 /\
    combination x [(h, da)] mid /\ largest_difference mid x1 e.

(** A path of such steps, each forward in time and meeting a condition on its start, size and error. *)
Inductive path (f : list R -> R -> list R -> option (list R)) (good : R -> R -> R -> Prop) (k : list R)
  : R -> list R -> R -> list R -> Prop :=
| path_here : forall t x, path f good k t x t x
| path_step : forall t x h x1 e t' x',
    kutta_step f k t h x x1 e -> 0 <= h -> good t h e ->
    path f good k (t + h) x1 t' x' -> path f good k t x t' x'.

(** The smallest step the error control may insist on at time t. *)
Definition smallest_step (requested t : R) : R := Rmax (Rmax (/ 10 ^ 14) (Rabs t * / 10 ^ 14)) requested.

(** A step within the limits: no longer than the maximum step, and its error estimate within the
    accuracy unless its size is down at the smallest step. *)
Definition within (m acc requested : R) (t h e : R) : Prop :=
  h <= m /\ (e <= acc \/ exists t', t <= t' <= t + m /\ h <= 1001 / 1000 * smallest_step requested t').

(** F is a primitive of g over [a, b]. *)
Definition primitive_on (g F : R -> R) (a b : R) : Prop := forall t, a <= t <= b -> derivable_pt_lim F t (g t).

(** g is a polynomial of degree at most three / two. *)
Definition cubic (g : R -> R) : Prop := exists a b c d, forall t, g t = a + b * t + c * t ^ 2 + d * t ^ 3.
Definition quadratic (g : R -> R) : Prop := exists a b c, forall t, g t = a + b * t + c * t ^ 2.

(** g is Lipschitz with constant L over [a, b]. *)
Definition lipschitz_on (L : R) (g : R -> R) (a b : R) : Prop :=
  forall t u, a <= t <= b -> a <= u <= b -> Rabs (g t - g u) <= L * Rabs (t - u).

(** The scalar product of a weight vector and a state. *)
Fixpoint dot (w x : list R) : R := match w, x with a :: w', b :: x' => a * b + dot w' x' | _, _ => 0 end.

(** E interpolates a path: between two states of the path every component is the cubic that has the
    values of the states and the derivatives of the ODE at both ends. *)
Inductive interpolates (E : nat -> R -> option R) (f : list R -> R -> list R -> option (list R)) (good : R -> R -> R -> Prop)
  (k : list R) : R -> list R -> R -> list R -> Prop :=
| interpolates_here : forall t x, interpolates E f good k t x t x
| interpolates_step : forall t x h x1 e t' x' d0 d1,
    kutta_step f k t h x x1 e -> 0 < h -> good t h e -> f k t x = Some d0 -> f k (t + h) x1 = Some d1 ->
    (forall i, exists c2 c3,
       (forall u, 0 <= u <= h -> E i (t + u) = Some (nth i x 0 + nth i d0 0 * u + c2 * u ^ 2 + c3 * u ^ 3)) /\
       nth i x 0 + nth i d0 0 * h + c2 * h ^ 2 + c3 * h ^ 3 = nth i x1 0 /\
       nth i d0 0 + 2 * c2 * h + 3 * c3 * h ^ 2 = nth i d1 0) ->
    interpolates E f good k (t + h) x1 t' x' -> interpolates E f good k t x t' x'.
