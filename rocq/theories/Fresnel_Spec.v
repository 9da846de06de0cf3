(** What the Fresnel integrals are: the primitives that vanish at zero of cos(pi x^2 / 2) and
    sin(pi x^2 / 2). *)
From Coq Require Import Reals.
Local Open Scope R_scope.

Record fresnel_integrals (C S : R -> R) : Prop := {
  C_zero : C 0 = 0;
  S_zero : S 0 = 0;
  C_derivative : forall x, derivable_pt_lim C x (cos (PI / 2 * (x * x)));
  S_derivative : forall x, derivable_pt_lim S x (sin (PI / 2 * (x * x)))
}.

(** A computed pair within [e] of both integrals. *)
Definition within (e : R) (C S : R -> R) (t : R) (r : option (R * R)) : Prop :=
  exists c s, r = Some (c, s) /\ Rabs (c - C t) <= e /\ Rabs (s - S t) <= e.
