(** Models of rule states and everything built on comparing them:
    Rule::State (src/maliput/api/rules/rule.cc), DiscreteValueRule, RangeValueRule,
    RuleRegistry (src/maliput/api/rules/rule_registry.cc), the manual state providers
    (src/maliput/base/manual_*_rule_state_provider.cc) and FilterRules
    (src/maliput/base/rule_filter.cc).
    Strings are lists of character codes, doubles are IEEE data ([spec_float]),
    ids are natural numbers whose order stands for the string order of the ids. *)
From Coq Require Import List ZArith QArith Bool Arith.
From Coq Require Import Floats.SpecFloat.
From Verif Require Import Base Maps Regions_Model.
Import ListNotations.

Definition str := list nat.
Fixpoint str_eqb (a b : str) : bool :=
  match a, b with
  | [], [] => true
  | x :: a', y :: b' => Nat.eqb x y && str_eqb a' b'
  | _, _ => false
  end.
(** std::string operator<: lexicographic. *)
Fixpoint str_ltb (a b : str) : bool :=
  match a, b with
  | _, [] => false
  | [], _ :: _ => true
  | x :: a', y :: b' => Nat.ltb x y || (Nat.eqb x y && str_ltb a' b')
  end.

(** std::map<std::string, std::vector<Id>>, rule.h 66-68. *)
Definition groups : Type := list (str * list nat).
(** Rule::State, rule.h 88-117. *)
Record rstate := mk_rstate { severity : Z; related_rules : groups; related_ids : groups }.

Definition vmem (x : nat) (l : list nat) : bool := existsb (Nat.eqb x) l.

(** CompareMapAttributes: rule.cc 42-60. *)
Definition compare_groups (a b : groups) : bool :=
  Nat.eqb (length a) (length b) &&
  forallb (fun kv => match mfind str_eqb (fst kv) b with
                     | None => false
                     | Some w => forallb (fun v => vmem v w) (snd kv)
                     end) a.

(** Rule::State::operator==: rule.cc 64-67. *)
Definition state_eqb (a b : rstate) : bool :=
  compare_groups (related_rules a) (related_rules b) &&
  compare_groups (related_ids a) (related_ids b) && Z.eqb (severity a) (severity b).

(** DiscreteValue and its ==: discrete_value_rule.h 51-75. *)
Record dvalue := mk_dvalue { dv_state : rstate; dv_value : str }.
Definition dvalue_eqb (a b : dvalue) : bool := str_eqb (dv_value a) (dv_value b) && state_eqb (dv_state a) (dv_state b).

(** Range and its ==: range_value_rule.h 53-88. *)
Record range := mk_range { rv_state : rstate; rv_desc : str; rv_min : spec_float; rv_max : spec_float }.
Definition range_eqb (a b : range) : bool :=
  SFeqb (rv_min a) (rv_min b) && SFeqb (rv_max a) (rv_max b) && str_eqb (rv_desc a) (rv_desc b) && state_eqb (rv_state a) (rv_state b).

(** Range::operator<: range_value_rule.cc 55-72. *)
Definition range_ltb (a b : range) : bool :=
  if Z.ltb (severity (rv_state a)) (severity (rv_state b)) then true
  else if Z.ltb (severity (rv_state b)) (severity (rv_state a)) then false
  else if str_ltb (rv_desc a) (rv_desc b) then true
  else if str_ltb (rv_desc b) (rv_desc a) then false
  else if SFltb (rv_min a) (rv_min b) then true
  else if SFltb (rv_min b) (rv_min a) then false
  else if SFltb (rv_max a) (rv_max b) then true
  else false.

(** ValidateRelatedRules / ValidateRelatedUniqueIds: rule.cc 69-93. *)
Definition count_id (x : nat) (l : list nat) : nat := length (filter (Nat.eqb x) l).
Definition groups_ok (g : groups) : bool :=
  forallb (fun kv => negb (match fst kv with [] => true | _ => false end) &&
                     forallb (fun x => Nat.eqb (count_id x (snd kv)) 1) (snd kv)) g.
Definition state_ok (s : rstate) : bool :=
  groups_ok (related_rules s) && groups_ok (related_ids s) && Z.leb 0 (severity s).

(** std::count(states.begin(), states.end(), x): counts elements y with y == x. *)
Definition count_eq {A} (eqb : A -> A -> bool) (x : A) (l : list A) : nat := length (filter (fun y => eqb y x) l).

(** DiscreteValueRule ctor: discrete_value_rule.cc 40-52.  Every check throws. *)
Definition DiscreteValueRule (vs : list dvalue) : outcome (list dvalue) :=
  throw_unless (negb (match vs with [] => true | _ => false end))
    (throw_unless (forallb (fun v => state_ok (dv_state v) && Nat.eqb (count_eq dvalue_eqb v vs) 1) vs) (Ok vs)).
(** RangeValueRule ctor: range_value_rule.cc 40-53. *)
Definition RangeValueRule (vs : list range) : outcome (list range) :=
  throw_unless (negb (match vs with [] => true | _ => false end))
    (throw_unless (forallb (fun v => state_ok (rv_state v) && SFleb (rv_min v) (rv_max v) && Nat.eqb (count_eq range_eqb v vs) 1) vs) (Ok vs)).

(** ** RuleRegistry: rule_registry.cc *)
Record registry := mk_registry { reg_ranges : list (nat * list range); reg_values : list (nat * list dvalue) }.
Definition reg_empty : registry := mk_registry [] [].

(** GetPossibleStatesOfRuleType: 94-108. *)
Definition GetPossibleStates (g : registry) (ty : nat) : option (list range + list dvalue) :=
  match mfind Nat.eqb ty (reg_ranges g) with
  | Some rs => Some (inl rs)
  | None => match mfind Nat.eqb ty (reg_values g) with Some vs => Some (inr vs) | None => None end
  end.

Definition no_duplicates {A} (eqb : A -> A -> bool) (l : list A) : bool :=
  forallb (fun x => Nat.eqb (count_eq eqb x l) 1) l.

(** RegisterRangeValueRule: 64-73. *)
Definition RegisterRange (ty : nat) (rs : list range) : action registry :=
  act_check (fun g => match GetPossibleStates g ty with None => true | _ => false end) ;;
  act_check (fun _ => negb (match rs with [] => true | _ => false end)) ;;
  act_check (fun _ => no_duplicates range_eqb rs) ;;
  (fun g => match memplace Nat.eqb ty rs (reg_ranges g) with
            | Some m => (mk_registry m (reg_values g), true)
            | None => (g, false)
            end).
(** RegisterDiscreteValueRule: 75-84. *)
Definition RegisterDiscrete (ty : nat) (vs : list dvalue) : action registry :=
  act_check (fun g => match GetPossibleStates g ty with None => true | _ => false end) ;;
  act_check (fun _ => negb (match vs with [] => true | _ => false end)) ;;
  act_check (fun _ => no_duplicates dvalue_eqb vs) ;;
  (fun g => match memplace Nat.eqb ty vs (reg_values g) with
            | Some m => (mk_registry (reg_ranges g) m, true)
            | None => (g, false)
            end).

(** HasValue: 45-60. *)
Definition HasDiscrete (vs : list dvalue) (v : dvalue) : bool :=
  existsb (fun d => Z.eqb (severity (dv_state d)) (severity (dv_state v)) && str_eqb (dv_value d) (dv_value v)) vs.
Definition HasRange (rs : list range) (r : range) : bool :=
  existsb (fun d => Z.eqb (severity (rv_state d)) (severity (rv_state r)) && SFeqb (rv_min d) (rv_min r) &&
                    SFeqb (rv_max d) (rv_max r) && str_eqb (rv_desc d) (rv_desc r)) rs.

(** BuildRangeValueRule 110-120, BuildDiscreteValueRule 122-132. *)
Definition BuildRange (g : registry) (ty : nat) (rs : list range) : outcome (list range) :=
  match mfind Nat.eqb ty (reg_ranges g) with
  | None => Throw
  | Some all => throw_unless (forallb (HasRange all) rs) (RangeValueRule rs)
  end.
Definition BuildDiscrete (g : registry) (ty : nat) (vs : list dvalue) : outcome (list dvalue) :=
  match mfind Nat.eqb ty (reg_values g) with
  | None => Throw
  | Some all => throw_unless (forallb (HasDiscrete all) vs) (DiscreteValueRule vs)
  end.

Inductive gop := RegR (ty : nat) (rs : list range) | RegD (ty : nat) (vs : list dvalue).
Definition gstep (o : gop) : action registry :=
  match o with RegR t rs => RegisterRange t rs | RegD t vs => RegisterDiscrete t vs end.

(** ** FilterRules: rule_filter.cc 39-64; maps are kept as lists. *)
Definition FilterMap {V} (f : V -> bool) (m : list (nat * V)) : list (nat * V) := filter (fun kv => f (snd kv)) m.
Fixpoint filter_all {V} (fs : list (V -> bool)) (m : list (nat * V)) : list (nat * V) :=
  match fs with [] => m | f :: fs' => filter_all fs' (FilterMap f m) end.
Record query (D R : Type) := mk_query { q_discrete : list (nat * D); q_range : list (nat * R) }.
Arguments mk_query {D R}. Arguments q_discrete {D R}. Arguments q_range {D R}.
Definition FilterRules {D R} (q : query D R) (fd : list (D -> bool)) (fr : list (R -> bool)) : query D R :=
  mk_query (filter_all fd (q_discrete q)) (filter_all fr (q_range q)).

(** ** Manual state providers.  [A] is DiscreteValue or Range with its ==. *)
Section Provider.
Context {A : Type}.
Variable eqb : A -> A -> bool.

(** A rule as the provider sees it: type, zone and states. *)
Record srule := mk_srule { sr_type : nat; sr_zone : list lsrange; sr_states : list A }.
(** Rulebook contents in map order (ascending ids). *)
Definition sbook : Type := list (nat * srule).

(** StateProviderResult. *)
Record sresult := mk_sresult { s_state : A; s_next : option (A * option Q) }.

(** ValidateRuleState: manual_discrete_value_rule_state_provider.cc 41-49;
    std::find compares *it == state. *)
Definition state_listed (r : srule) (s : A) : bool := existsb (fun x => eqb x s) (sr_states r).

(** SetState: 51-73 (range: manual_range_value_rule_state_provider.cc 74-97). *)
Definition next_ok (r : srule) (next : option A) (dur : option Q) : bool :=
  match next with
  | Some n => state_listed r n && match dur with Some d => Qltb 0 d | None => true end
  | None => match dur with Some _ => false | None => true end
  end.
Definition SetState (b : sbook) (id : nat) (s : A) (next : option A) (dur : option Q) : action (list (nat * sresult)) :=
  fun m => match mfind Nat.eqb id b with
           | None => (m, false)
           | Some r => if state_listed r s && next_ok r next dur
                       then (mset Nat.eqb id (mk_sresult s (match next with Some n => Some (n, dur) | None => None end)) m, true)
                       else (m, false)
           end.
(** DoGetState(id): 75-82. *)
Definition GetState (m : list (nat * sresult)) (id : nat) : option sresult := mfind Nat.eqb id m.

(** GetFilteredDiscreteValueRules 106-122: filter by type, then by zone.  The zone
    filter may throw; that is kept by folding outcomes. *)
Fixpoint zone_filter (p : list lsrange) (tol : Q) (b : sbook) : outcome sbook :=
  match b with
  | [] => Ok []
  | (id, r) :: b' =>
      obind (RIntersects (sr_zone r) p tol) (fun x =>
      obind (zone_filter p tol b') (fun rest => Ok (if x : bool then (id, r) :: rest else rest)))
  end.
Definition filtered_rules (b : sbook) (lane : nat) (s tol : Q) (ty : nat) : outcome sbook :=
  throw_unless (Qleb 0 tol)
    (match FilterMap (fun r => Nat.eqb (sr_type r) ty) b with
     | [] => Ok []
     | b' => obind (SRange s s) (fun r => zone_filter [mk_lsrange lane r] tol b')
     end).
(** DoGetState(road_position, type, tolerance): 84-104. *)
Definition GetStateAt (b : sbook) (m : list (nat * sresult)) (lane : nat) (s tol : Q) (ty : nat) : outcome (option sresult) :=
  obind (filtered_rules b lane s tol ty) (fun rs =>
    match rs with
    | [] => Ok None
    | (id, _) :: _ => match mfind Nat.eqb id m with Some v => Ok (Some v) | None => Throw end
    end).

(** Default population: manual_range_value_rule_state_provider.cc 46-64,
    phased_discrete_rule_state_provider.cc 55-75; states().front() of an empty
    vector is undefined (rule constructors exclude it). *)
Fixpoint populate (b : sbook) (rules : list (nat * srule)) (m : list (nat * sresult)) : outcome (list (nat * sresult)) :=
  match rules with
  | [] => Ok m
  | (id, r) :: rest =>
      match sr_states r with
      | [] => UB
      | s :: _ => let (m', ok) := SetState b id s None None m in if ok then populate b rest m' else Throw
      end
  end.
End Provider.
Arguments srule : clear implicits.
Arguments sbook : clear implicits.
Arguments sresult : clear implicits.

(** ** ManualRightOfWayRuleStateProvider: manual_right_of_way_rule_state_provider.cc 42-61. *)
Definition AddRowState (id s : nat) : action (list (nat * nat)) :=
  fun m => match memplace Nat.eqb id s m with Some m' => (m', true) | None => (m, false) end.
Definition SetRowState (id s : nat) : action (list (nat * nat)) :=
  fun m => if mhas Nat.eqb id m then (mset Nat.eqb id s m, true) else (m, false).
Definition GetRowState (m : list (nat * nat)) (id : nat) : option nat := mfind Nat.eqb id m.
