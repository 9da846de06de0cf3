(** Where a (lane, s) pair lies on a route, measured in arc length from the start. *)
From Coq Require Import List QArith.
From Verif Require Import Base Regions_Model.
Import ListNotations.
Open Scope Q_scope.

Fixpoint arc (rs : list lsrange) : Q :=
  match rs with [] => 0 | r :: rs' => (s1 (s_range r) - s0 (s_range r)) + arc rs' end.

Definition on_route (rs : list lsrange) (d : Q) (w : nat * Q) : Prop :=
  exists pre r post, rs = pre ++ r :: post /\ fst w = lane_id r /\
    s0 (s_range r) <= snd w /\ snd w <= s1 (s_range r) /\
    d == arc pre + (snd w - s0 (s_range r)).

(** Every range is travelled with increasing s. *)
Definition forwards (rs : list lsrange) : Prop :=
  forall r, In r rs -> s0 (s_range r) <= s1 (s_range r).
