(** Specification of a rulebook: a finite map from (kind, id) to rules, replayed
    over a history.  Nothing here mentions the index or the rulebook functions. *)
From Coq Require Import List QArith Bool Arith.
From Verif Require Import Base Regions_Model Regions_Spec Rulebook_Model.
Import ListNotations.

Definition contents := kind -> nat -> option rule.
Definition nothing : contents := fun _ _ => None.

(** Discrete and range value rules share their id space. *)
Definition same_space (k k' : kind) : Prop := alt_of k = alt_of k'.
Definition taken (c : contents) (k : kind) (id : nat) : Prop :=
  exists k' r, same_space k k' /\ c k' id = Some r.

(** What one call does to the contents, and whether it returns. *)
Inductive effect : op -> contents -> contents -> bool -> Prop :=
| eff_add k r c c' : ~ taken c k (r_id r) ->
    (forall k' id, c' k' id = if kind_eqb k' k && Nat.eqb id (r_id r) then Some r else c k' id) ->
    effect (Add k r) c c' true
| eff_add_taken k r c c' : taken c k (r_id r) -> (forall k' id, c' k' id = c k' id) -> effect (Add k r) c c' false
| eff_remove a id c c' : (exists k r, alt_of k = a /\ c k id = Some r) ->
    (forall k' id', c' k' id' = if alt_eqb (alt_of k') a && Nat.eqb id' id then None else c k' id') ->
    effect (Remove a id) c c' true
| eff_remove_absent a id c c' : (forall k r, alt_of k = a -> c k id <> Some r) ->
    (forall k' id', c' k' id' = c k' id') -> effect (Remove a id) c c' false
| eff_clear c c' : (forall k id, c' k id = None) -> effect Clear c c' true.

(** A legal zone whose ranges lie on pairwise different lanes. *)
Definition lanes_once (r : rule) : Prop := NoDup (map lane_id (r_zone r)).
Definition zone_valid (r : rule) : Prop := forall z, In z (r_zone r) -> lvalid z.

Definition op_rule (P : rule -> Prop) (o : op) : Prop :=
  match o with Add _ r => P r | _ => True end.

(** The contents after a history of calls, as a relation. *)
Inductive replay : list op -> contents -> Prop :=
| replay_nil : replay [] nothing
| replay_snoc h o c c' ok : replay h c -> effect o c c' ok -> replay (h ++ [o]) c'.
