(** Specification vocabulary for C106 and C107. *)
From Coq Require Import List Bool Arith.
From Verif Require Import Base RuleStates_Model RuleStates_Spec Network_Model.
Import ListNotations.

(** The pointer of the first traffic light with this id among the arguments of the additions. *)
Fixpoint first_light (id : nat) (h : list (option light)) : option nat :=
  match h with
  | [] => None
  | Some l :: h' => if Nat.eq_dec (l_id l) id then Some (l_pointer l) else first_light id h'
  | None :: h' => first_light id h'
  end.

(** The last call of a history that set the state of a rule: it returned normally and no later call for it did.
    [runs] tells of a call, after the calls before it, whether it returned. *)
Definition last_returned (runs : list (set_call dvalue) -> set_call dvalue -> bool) (h : list (set_call dvalue)) (id : nat) (c : set_call dvalue) : Prop :=
  exists before after, h = before ++ c :: after /\ c_id c = id /\ runs before c = true /\
    forall between c' rest, after = between ++ c' :: rest -> c_id c' = id -> runs (before ++ c :: between) c' = false.
(** The group listed first under a key. *)
Definition group_of (k : str) (g : groups) (l : list nat) : Prop :=
  exists i, nth_error g i = Some (k, l) /\ forall j l', (j < i)%nat -> nth_error g j <> Some (k, l').
