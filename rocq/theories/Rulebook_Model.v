(** Model of ManualRulebook, src/maliput/base/manual_rulebook.cc, and of the
    RoadRulebook front end, include/maliput/api/rules/road_rulebook.h 85-122.
    Simplifications: ids are natural numbers; a rule is its id, its zone as the
    list of lane ranges and an opaque payload; hash container order is not
    modelled (query results are ordered maps). *)
From Coq Require Import List QArith Bool Arith.
From Verif Require Import Base Maps Regions_Model.
Import ListNotations.

(** The five rule containers, manual_rulebook.cc 328-333. *)
Inductive kind := RightOfWay | SpeedLimit | DirectionUsage | DiscreteValue | RangeValue.

Definition kind_eqb (a b : kind) : bool :=
  match a, b with
  | RightOfWay, RightOfWay | SpeedLimit, SpeedLimit | DirectionUsage, DirectionUsage
  | DiscreteValue, DiscreteValue | RangeValue, RangeValue => true
  | _, _ => false
  end.

(** IdVariant, lines 50-51: its alternative (Rule::Id serves both rule kinds) and id. *)
Inductive alt := ARow | ASpeed | ADir | ARule.
Definition alt_of (k : kind) : alt :=
  match k with RightOfWay => ARow | SpeedLimit => ASpeed | DirectionUsage => ADir | DiscreteValue | RangeValue => ARule end.
Definition alt_eqb (a b : alt) : bool :=
  match a, b with ARow, ARow | ASpeed, ASpeed | ADir, ADir | ARule, ARule => true | _, _ => false end.
Definition idv : Type := alt * nat.
Definition idv_eqb (a b : idv) : bool := alt_eqb (fst a) (fst b) && Nat.eqb (snd a) (snd b).

(** What the rulebook reads of a rule: id(), zone().ranges() (the one range of a
    SpeedLimitRule or DirectionUsageRule zone). *)
Record rule := mk_rule { r_id : nat; r_zone : list lsrange; r_data : nat }.

(** Impl members, lines 325-333; the RangeIndex map_, line 293. *)
Record book := mk_book {
  rules : kind -> list (nat * rule);
  index : list (nat * list (idv * srange)) }.

Definition empty : book := mk_book (fun _ => []) [].

Definition set_rules (k : kind) (m : list (nat * rule)) (b : book) : book :=
  mk_book (fun k' => if kind_eqb k' k then m else rules b k') (index b).
Definition set_index (i : list (nat * list (idv * srange))) (b : book) : book := mk_book (rules b) i.

Definition lane_entries (l : nat) (b : book) : list (idv * srange) :=
  match mfind Nat.eqb l (index b) with Some e => e | None => [] end.

(** RangeIndex::AddRange, line 279 ([map_[lane]] creates the entry). *)
Definition AddRange (i : idv) (r : lsrange) : action book :=
  act_do (fun b => set_index (mset Nat.eqb (lane_id r) (lane_entries (lane_id r) b ++ [(i, s_range r)]) (index b)) b).

(** RangeIndex::RemoveRanges, lines 282-287 ([map_.at] throws for an absent lane). *)
Definition RemoveRanges (i : idv) (l : nat) : action book :=
  act_check (fun b => mhas Nat.eqb l (index b)) ;;
  act_do (fun b =>
    let rest := merase idv_eqb i (lane_entries l b) in
    set_index (match rest with [] => merase Nat.eqb l (index b) | _ => mset Nat.eqb l rest (index b) end) b).

(** RangeIndex::AddRule and RemoveRule, lines 219-262. *)
Definition index_add (k : kind) (r : rule) : action book :=
  act_each (AddRange (alt_of k, r_id r)) (r_zone r).
Definition index_remove (k : kind) (r : rule) : action book :=
  act_each (fun z => RemoveRanges (alt_of k, r_id r) (lane_id z)) (r_zone r).

(** The other container consulted by AddRule, lines 123 and 130. *)
Definition other (k : kind) : option kind :=
  match k with DiscreteValue => Some RangeValue | RangeValue => Some DiscreteValue | _ => None end.

(** map->emplace(rule.id(), rule) with its THROW_UNLESS, lines 303-305, 125, 132. *)
Definition emplace_rule (k : kind) (r : rule) : action book :=
  fun b => match memplace Nat.eqb (r_id r) r (rules b k) with
           | Some m => (set_rules k m b, true)
           | None => (b, false)
           end.

(** AddAnyRule 300-308, AddRule 122-134. *)
Definition AddRule (k : kind) (r : rule) : action book :=
  act_check (fun b => match other k with Some k' => negb (mhas Nat.eqb (r_id r) (rules b k')) | None => true end) ;;
  emplace_rule k r ;;
  index_add k r.

(** Lines 317-322 for one container: index first, then erase. *)
Definition remove_from (k : kind) (id : nat) : action book :=
  fun b => match mfind Nat.eqb id (rules b k) with
           | None => (b, false)
           | Some r => (index_remove k r ;; act_do (fun b => set_rules k (merase Nat.eqb id (rules b k)) b)) b
           end.

(** RemoveAnyRule 315-323 and RemoveRule(Rule::Id) 136-150. *)
Definition RemoveRule (a : alt) (id : nat) : action book :=
  match a with
  | ARow => remove_from RightOfWay id
  | ASpeed => remove_from SpeedLimit id
  | ADir => remove_from DirectionUsage id
  | ARule => fun b => if mhas Nat.eqb id (rules b DiscreteValue) then remove_from DiscreteValue id b
                      else remove_from RangeValue id b
  end.

(** RemoveAll, lines 99-106. *)
Definition RemoveAll : action book := act_do (fun _ => empty).

(** GetAnyRule 310-313, DoGetDiscreteValueRule 205, DoGetRangeValueRule 207. *)
Definition GetRule (k : kind) (id : nat) (b : book) : outcome rule :=
  match mfind Nat.eqb id (rules b k) with Some r => Ok r | None => Throw end.

(** DoRules, lines 185-193. *)
Definition Rules (b : book) : kind -> list (nat * rule) := rules b.

(** RangeIndex::FindRules, lines 264-275. *)
Fixpoint find_entries (es : list (idv * srange)) (q : srange) (tol : Q) : outcome (list idv) :=
  match es with
  | [] => Ok []
  | (i, r) :: es' =>
      obind (Intersects r q tol) (fun h =>
        omap (fun l => if h then i :: l else l) (find_entries es' q tol))
  end.

(** One identifier of the result, lines 156-179; std::map::emplace keeps the first. *)
Definition res_emplace (k : kind) (id : nat) (r : rule) (q : kind -> list (nat * rule)) : kind -> list (nat * rule) :=
  fun k' => if kind_eqb k' k then
              match memplace Nat.eqb id r (q k) with Some m => m | None => q k end
            else q k'.

Definition take (b : book) (k : kind) (id : nat) (q : kind -> list (nat * rule)) : outcome (kind -> list (nat * rule)) :=
  obind (GetRule k id b) (fun r => Ok (res_emplace k id r q)).

Definition collect1 (b : book) (i : idv) (q : kind -> list (nat * rule)) : outcome (kind -> list (nat * rule)) :=
  match fst i with
  | ARow => take b RightOfWay (snd i) q
  | ASpeed => take b SpeedLimit (snd i) q
  | ADir => take b DirectionUsage (snd i) q
  | ARule => if mhas Nat.eqb (snd i) (rules b RangeValue) then take b RangeValue (snd i) q
             else take b DiscreteValue (snd i) q
  end.

Fixpoint collect (b : book) (l : list idv) (q : kind -> list (nat * rule)) : outcome (kind -> list (nat * rule)) :=
  match l with [] => Ok q | i :: l' => obind (collect1 b i q) (collect b l') end.

(** DoFindRules, lines 152-183. *)
Fixpoint find_ranges (b : book) (rs : list lsrange) (tol : Q) (q : kind -> list (nat * rule)) : outcome (kind -> list (nat * rule)) :=
  match rs with
  | [] => Ok q
  | r :: rs' =>
      obind (find_entries (lane_entries (lane_id r) b) (s_range r) tol) (fun l =>
      obind (collect b l q) (find_ranges b rs' tol))
  end.

(** RoadRulebook::FindRules, road_rulebook.h 85-88. *)
Definition FindRules (b : book) (rs : list lsrange) (tol : Q) : outcome (kind -> list (nat * rule)) :=
  throw_unless (Qleb 0 tol) (find_ranges b rs tol (fun _ => [])).

(** The mutating calls of the public interface. *)
Inductive op := Add (k : kind) (r : rule) | Remove (a : alt) (id : nat) | Clear.
Definition step (o : op) : action book :=
  match o with Add k r => AddRule k r | Remove a id => RemoveRule a id | Clear => RemoveAll end.
