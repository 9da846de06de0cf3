(** Specification vocabulary for rule states. *)
From Coq Require Import List ZArith QArith Bool Arith.
From Coq Require Import Floats.SpecFloat.
From Verif Require Import Base Regions_Model Regions_Spec Scalar_Spec RuleStates_Model.
Import ListNotations.

(** std::map: keys are unique. *)
Definition map_groups (g : groups) : Prop := NoDup (map fst g).
Definition map_state (s : rstate) : Prop := map_groups (related_rules s) /\ map_groups (related_ids s).

(** Same groups with the same ids in each group: the "contents match" of the
    comment in rule.cc 40-41. *)
Definition same_groups (a b : groups) : Prop :=
  (forall k, In k (map fst a) <-> In k (map fst b)) /\
  (forall k v w, In (k, v) a -> In (k, w) b -> forall x, In x v <-> In x w).
Definition same_state (a b : rstate) : Prop :=
  severity a = severity b /\ same_groups (related_rules a) (related_rules b) /\ same_groups (related_ids a) (related_ids b).
(** Same groups, the left ids among the right ones. *)
Definition sub_groups (a b : groups) : Prop :=
  (forall k, In k (map fst a) <-> In k (map fst b)) /\
  (forall k v w, In (k, v) a -> In (k, w) b -> forall x, In x v -> In x w).
Definition sub_state (a b : rstate) : Prop :=
  severity a = severity b /\ sub_groups (related_rules a) (related_rules b) /\ sub_groups (related_ids a) (related_ids b).

(** Groups list each id once, and the two have as many in every common group. *)
Definition same_sizes (a b : groups) : Prop :=
  forall k v w, In (k, v) a -> In (k, w) b -> NoDup v /\ NoDup w /\ length v = length w.
Definition same_sizes_state (a b : rstate) : Prop :=
  same_sizes (related_rules a) (related_rules b) /\ same_sizes (related_ids a) (related_ids b).

(** Documented conditions on the related ids. *)
Definition good_groups (g : groups) : Prop := forall k v, In (k, v) g -> k <> [] /\ NoDup v.
Definition good_state (s : rstate) : Prop :=
  good_groups (related_rules s) /\ good_groups (related_ids s) /\ (0 <= severity s)%Z.

(** Lexicographic order on strings. *)
Definition str_lt (a b : str) : Prop :=
  exists p, (exists y b', a = p /\ b = p ++ y :: b') \/
            (exists x a' y b', a = p ++ x :: a' /\ b = p ++ y :: b' /\ (x < y)%nat).

(** A strict weak order on the elements satisfying [P]. *)
Definition strict_weak_order {A} (P : A -> Prop) (lt : A -> A -> bool) : Prop :=
  (forall a, P a -> lt a a = false) /\
  (forall a b, P a -> P b -> lt a b = true -> lt b a = false) /\
  (forall a b c, P a -> P b -> P c -> lt a b = true -> lt b c = true -> lt a c = true) /\
  (forall a b c, P a -> P b -> P c -> lt a b = false -> lt b a = false -> lt b c = false -> lt c b = false ->
     lt a c = false /\ lt c a = false).

Definition number (d : double) : Prop := is_double d /\ value d <> None.
Definition range_number (r : range) : Prop := number (rv_min r) /\ number (rv_max r).
Definition lt_double (a b : double) : Prop := exists u v, value a = Some u /\ value b = Some v /\ ~ ext_le v u.
(** The order of the documentation: severity, description, min, max. *)
Definition range_before (a b : range) : Prop :=
  (severity (rv_state a) < severity (rv_state b))%Z \/
  severity (rv_state a) = severity (rv_state b) /\
  (str_lt (rv_desc a) (rv_desc b) \/
   rv_desc a = rv_desc b /\
   (lt_double (rv_min a) (rv_min b) \/
    value (rv_min a) = value (rv_min b) /\ lt_double (rv_max a) (rv_max b))).

(** No two positions hold elements related by [R]. *)
Definition pairwise_apart {A} (R : A -> A -> Prop) (l : list A) : Prop :=
  forall i j x y, nth_error l i = Some x -> nth_error l j = Some y -> i <> j -> ~ R x y.

(** Registrations: what each type was registered with, by the first returned call. *)
Definition gop_type (o : gop) : nat := match o with RegR t _ => t | RegD t _ => t end.
Definition gop_states (o : gop) : list range + list dvalue := match o with RegR _ rs => inl rs | RegD _ vs => inr vs end.

(** States set in a history of calls with outcomes. *)
Record set_call (A : Type) := mk_call { c_book : sbook A; c_id : nat; c_state : A; c_next : option A; c_dur : option Q }.
Arguments mk_call {A}. Arguments c_book {A}. Arguments c_id {A}. Arguments c_state {A}. Arguments c_next {A}. Arguments c_dur {A}.
Fixpoint last_set {A} (id : nat) (l : list (set_call A * bool)) (v : option (sresult A)) : option (sresult A) :=
  match l with
  | [] => v
  | (c, ok) :: l' =>
      last_set id l' (if ok && Nat.eqb (c_id c) id
                      then Some (mk_sresult (c_state c) (match c_next c with Some n => Some (n, c_dur c) | None => None end))
                      else v)
  end.
