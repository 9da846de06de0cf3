(** Specification vocabulary for phase rings, ring books and phase providers. *)
From Coq Require Import List QArith Bool Arith.
From Verif Require Import Base Phases_Model.
Import ListNotations.

Definition keys {V} (m : list (nat * V)) : list nat := map fst m.
Definition same_set (a b : list nat) : Prop := forall x, In x a <-> In x b.

(** The maps of a phase have unique keys (a property of std::unordered_map). *)
Definition phase_maps (p : phase) : Prop :=
  NoDup (keys (ph_row p)) /\ NoDup (keys (ph_disc p)) /\
  forall b, ph_bulbs p = Some b -> NoDup (keys b).

(** Two phases govern the same rules. *)
Definition same_rules (p q : phase) : Prop :=
  same_set (keys (ph_row p)) (keys (ph_row q)) /\ same_set (keys (ph_disc p)) (keys (ph_disc q)).
Definition same_bulbs (p q : phase) : Prop :=
  match ph_bulbs p, ph_bulbs q with
  | None, None => True
  | Some a, Some b => same_set (keys a) (keys b)
  | _, _ => False
  end.

(** What every constructed ring satisfies. *)
Definition ring_ok (r : ring) : Prop :=
  rg_phases r <> [] /\ NoDup (keys (rg_phases r)) /\
  (forall id p, In (id, p) (rg_phases r) -> ph_id p = id /\ phase_maps p) /\
  (forall p q, In p (map snd (rg_phases r)) -> In q (map snd (rg_phases r)) -> same_rules p q).

(** The ring has the rule in its phases. *)
Definition covers_row (r : ring) (rule : nat) : Prop := exists p, In p (map snd (rg_phases r)) /\ In rule (keys (ph_row p)).
Definition covers_rule (r : ring) (rule : nat) : Prop := exists p, In p (map snd (rg_phases r)) /\ In rule (keys (ph_disc p)).

(** ** The ring book as a map from ring ids to rings *)
Definition ringmap := nat -> option ring.
Definition share_rule (a b : ring) : Prop :=
  (exists x, covers_row a x /\ covers_row b x) \/ (exists x, covers_rule a x /\ covers_rule b x).

Inductive reffect : rop -> ringmap -> ringmap -> bool -> Prop :=
| re_add p r c c' : c (rg_id r) = None -> (forall id x, c id = Some x -> ~ share_rule r x) ->
    (forall id, c' id = if Nat.eqb id (rg_id r) then Some r else c id) -> reffect (AddR p r) c c' true
| re_dup p r x c c' : c (rg_id r) = Some x -> (forall id, c' id = c id) -> reffect (AddR p r) c c' false
| re_rem p id r c c' : c id = Some r -> (forall id', c' id' = if Nat.eqb id' id then None else c id') -> reffect (RemR p id) c c' true
| re_absent p id c c' : c id = None -> (forall id', c' id' = c id') -> reffect (RemR p id) c c' false.

Inductive rreplay : list rop -> ringmap -> Prop :=
| rr_nil : rreplay [] (fun _ => None)
| rr_snoc h o c c' ok : rreplay h c -> reffect o c c' ok -> rreplay (h ++ [o]) c'.

(** Histories whose added rings are well formed. *)
Definition rop_ok (o : rop) : Prop := match o with AddR _ r => ring_ok r | RemR _ _ => True end.

(** ** Providers *)
(** What a call asked for. *)
Definition pop_ring (o : pop) : nat := match o with AddP i _ _ _ => i | SetP i _ _ _ => i end.
Definition pop_value (o : pop) : nat * option (nat * option Q) :=
  match o with
  | AddP _ p n d | SetP _ p n d => (p, match n with Some x => Some (x, d) | None => None end)
  end.
(** A duration was given without a next phase. *)
Definition pop_bad (o : pop) : Prop :=
  match o with AddP _ _ n d | SetP _ _ n d => n = None /\ d <> None end.
(** The value of the last returned call on a ring, in a list of calls with their outcomes. *)
Fixpoint last_written (id : nat) (l : list (pop * bool)) (v : option (nat * option (nat * option Q))) :=
  match l with
  | [] => v
  | (o, ok) :: l' => last_written id l' (if ok && Nat.eqb (pop_ring o) id then Some (pop_value o) else v)
  end.

(** Value assigned to a rule by the phase with the given id. *)
Definition assigns_row (r : ring) (ph rule v : nat) : Prop := exists p, In (ph, p) (rg_phases r) /\ In (rule, v) (ph_row p).
Definition assigns_rule (r : ring) (ph rule v : nat) : Prop := exists p, In (ph, p) (rg_phases r) /\ In (rule, v) (ph_disc p).
Definition has_phase (r : ring) (ph : nat) : Prop := In ph (keys (rg_phases r)).
