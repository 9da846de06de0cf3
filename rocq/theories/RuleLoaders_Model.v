(** Models of the loaders of rules: src/maliput/base/road_rulebook_loader_using_rule_registry.cc,
    road_rulebook_loader.cc, phase_ring_book_loader_old_rules.cc and intersection_book_loader.cc,
    with the constructors of the rules and the built-in types of src/maliput/base/rule_registry.cc.
    As in Loaders_Model documents are given parsed, ids are strings and [D] stands for double.
    Maps are lists in order of insertion (the order of iteration over an unordered_map is not
    specified). *)
From Coq Require Import String List Bool Arith ZArith.
From Verif Require Import Base Maps Loaders_Model UniqueId_Model.
Import ListNotations.
Local Open Scope string_scope.

Local Notation "'let!' x ':=' e 'in' k" := (obind e (fun x => k)) (at level 200, x name, k at level 200).
Local Notation "'check!' c 'in' k" := (throw_unless c k) (at level 200, k at level 200).

(** for (const auto& it : node) where [it] is used as a node: the items of a map are pairs, as
    nodes they are undefined. *)
Definition items (n : yaml) : list yaml := match n with Seq l => l | Map l => map (fun _ => Undefined) l | _ => [] end.
(** std::all_of with a predicate that may throw. *)
Fixpoint all_of {A} (f : A -> outcome bool) (l : list A) : outcome bool :=
  match l with [] => Ok true | x :: l' => let! b := f x in if b then all_of f l' else Ok false end.

(** Rule::RelatedRules and Rule::RelatedUniqueIds, api/rules/rule.h: from group to ids. *)
Definition groups : Type := list (string * list string).
(** map[k].push_back(id) *)
Fixpoint push_to (k id : string) (g : groups) : groups :=
  match g with [] => [(k, [id])] | (k', ids) :: g' => if k =? k' then (k', ids ++ [id])%list :: g' else (k', ids) :: push_to k id g' end.
(** CompareMapAttributes, api/rules/rule.cc 42-60. *)
Definition compare_groups (a b : groups) : bool :=
  Nat.eqb (length a) (length b) &&
  forallb (fun kv => match mfind String.eqb (fst kv) b with Some ids => forallb (fun x => existsb (String.eqb x) ids) (snd kv) | None => false end) a.
(** ValidateRelatedRules 69-80, ValidateRelatedUniqueIds 82-93. *)
Definition count_in (x : string) (l : list string) : nat := length (filter (String.eqb x) l).
Definition groups_ok (g : groups) : bool :=
  forallb (fun kv => negb (fst kv =? "") && forallb (fun x => Nat.eqb (count_in x (snd kv)) 1) (snd kv)) g.

(** DiscreteValueRule::DiscreteValue, with its operator== (Rule::State::operator==, rule.cc 64-67). *)
Record dval := mk_dval { dv_severity : Z; dv_rules : groups; dv_ids : groups; dv_value : string }.
Definition dval_eqb (a b : dval) : bool :=
  (dv_value a =? dv_value b) && (compare_groups (dv_rules a) (dv_rules b) && compare_groups (dv_ids a) (dv_ids b) && Z.eqb (dv_severity a) (dv_severity b)).
(** RightOfWayRule::State::Type and its names, right_of_way_rule.h 119-128, road_rulebook_loader.cc 319-323. *)
Inductive rowtype := Go | Stop | StopThenGo.
Definition rowtype_name (t : rowtype) : string := match t with Go => "Go" | Stop => "Stop" | StopThenGo => "StopThenGo" end.
Definition rowtype_eqb (a b : rowtype) : bool := match a, b with Go, Go | Stop, Stop | StopThenGo, StopThenGo => true | _, _ => false end.
(** RightOfWayRule::ZoneType; DirectionUsageRule::State::Severity and Type. *)
Inductive zonetype := StopExcluded | StopAllowed.
Inductive dirseverity := SStrict | SPreferred.
Inductive dirtype := WithS | AgainstS | Bidirectional | BidirectionalTurnOnly | NoUse | Parking | DUndefined.
(** convert<Severity>::decode, road_rulebook_loader.cc 106-123. *)
Definition dirseverity_of (s : string) : option dirseverity := if s =? "Strict" then Some SStrict else if s =? "Preferred" then Some SPreferred else None.
(** convert<Type>::decode 138-165 with StateTypeMapper, direction_usage_rule.cc 36-44. *)
Definition dirtype_of (s : string) : option dirtype :=
  if s =? "WithS" then Some WithS else if s =? "AgainstS" then Some AgainstS else if s =? "Bidirectional" then Some Bidirectional
  else if s =? "BidirectionalTurnOnly" then Some BidirectionalTurnOnly else if s =? "NoUse" then Some NoUse else if s =? "Parking" then Some Parking else None.

(** ** Built-in rule types, src/maliput/base/rule_registry.cc *)
(** A type and its values: severity and value; related rules and ids are empty. *)
Definition builtin_type : Type := string * list (Z * string).
(** GenerateEveryCombination 41-53. *)
Definition GenerateEveryCombination (severities : list Z) (values : list string) : list (Z * string) := flat_map (fun z => map (fun v => (z, v)) values) severities.
(** Rule::State::kStrict and kBestEffort, api/rules/rule.h. *)
Definition kStrict : Z := 0.
Definition kBestEffort : Z := 1.
(** 57-64, 66-73, 75-86 and 90-92. *)
Definition DirectionUsageRuleTypeId : string := "Direction-Usage Rule Type".
Definition BuildDirectionUsageRuleType : builtin_type :=
  (DirectionUsageRuleTypeId, GenerateEveryCombination [kStrict] ["WithS"; "AgainstS"; "Bidirectional"; "BidirectionalTurnOnly"; "NoUse"; "Parking"; "Undefined"]).
Definition RightOfWayRuleTypeId : string := "Right-Of-Way Rule Type".
Definition BuildRightOfWayRuleType : builtin_type := (RightOfWayRuleTypeId, GenerateEveryCombination [kStrict; kBestEffort] ["Go"; "Stop"; "StopAndGo"]).
Definition VehicleStopInZoneBehaviorRuleTypeId : string := "Vehicle-Stop-In-Zone-Behavior Rule Type".
Definition BuildVehicleStopInZoneBehaviorRuleType : builtin_type :=
  (VehicleStopInZoneBehaviorRuleTypeId,
   GenerateEveryCombination [kStrict] ["DoNotStop"; "5MinuteParking"; "30MinuteParking"; "45MinuteParking"; "1HourParking"; "2HourParking"; "4HourParking"; "UnconstrainedParking"]).
Definition kYieldGroup : string := "Yield Group".
Definition kBulbGroup : string := "Bulb Group".

Section RuleLoaders.
Context {D : Type}.
Variables (to_double : string -> option D) (to_int : string -> option Z) (null_text : option string) (Dleb Deqb : D -> D -> bool) (zero : D).
(** road_geometry->ById().GetLane(id) and its length(). *)
Variable lane_length : string -> option D.
Notation as_string := (as_string null_text).
Notation as_id := (as_id null_text).
Notation as_double := (as_double to_double).

(** ** Zones *)
(** LaneSRange, api/regions.h 130-190. *)
Record lane_range := mk_lane_range { lr_lane : string; lr_s0 : D; lr_s1 : D }.
(** SRange::SRange, api/regions.cc 66-69. *)
Definition make_srange (a b : D) : outcome (D * D) := check! Dleb zero a in check! Dleb zero b in Ok (a, b).
(** convert<SRange>::decode, yaml_conversion.cc 43-50, with set_s0 and set_s1, regions.cc 71-79. *)
Definition as_srange (n : yaml) : outcome (D * D) :=
  match n with
  | Seq [a; b] => let! x := as_double a in check! Dleb zero x in let! y := as_double b in check! Dleb zero y in Ok (x, y)
  | _ => Throw
  end.
(** GetSRange, road_rulebook_loader_using_rule_registry.cc 114-124; ObtainSRange,
    road_rulebook_loader.cc 173-182, which has another key. *)
Definition GetSRange (key : string) (len : D) (n : yaml) : outcome (D * D) :=
  let! rn := get n key in
  if is_defined rn then let! r := as_srange rn in check! Dleb zero (fst r) in check! Dleb (snd r) len in Ok r
  else make_srange zero len.
(** GetLaneSRangeFromYamlNode 130-139; BuildLaneSRange, road_rulebook_loader.cc 184-195. *)
Definition GetLaneSRange (klane krange : string) (n : yaml) : outcome lane_range :=
  check! is_map n in let! ln := need n klane in let! id := as_id ln in let! len := conv (lane_length id) in
  let! r := GetSRange krange len n in Ok (mk_lane_range id (fst r) (snd r)).
(** The loops of GetZoneFromYamlNode 144-153 and BuildLaneSRoute, road_rulebook_loader.cc 197-204. *)
Definition GetZone (klane krange : string) (n : yaml) : outcome (list lane_range) :=
  check! is_seq n in each_ok (GetLaneSRange klane krange) (elements n).

(** ** The rules *)
(** RangeValueRule::Range, with its operator==, range_value_rule.h. *)
Record rval := mk_rval { rv_severity : Z; rv_rules : groups; rv_ids : groups; rv_desc : string; rv_min : D; rv_max : D }.
Definition rval_eqb (a b : rval) : bool :=
  (compare_groups (rv_rules a) (rv_rules b) && compare_groups (rv_ids a) (rv_ids b) && Z.eqb (rv_severity a) (rv_severity b)) &&
  (rv_desc a =? rv_desc b) && Deqb (rv_min a) (rv_min b) && Deqb (rv_max a) (rv_max b).
Record drule := mk_drule { dr_id : string; dr_type : string; dr_zone : list lane_range; dr_values : list dval }.
Record rrule := mk_rrule { rr_id : string; rr_type : string; rr_zone : list lane_range; rr_ranges : list rval }.
(** RightOfWayRule with its states by id, each with its type and yield group. *)
Record rowrule := mk_rowrule { rw_id : string; rw_zone : list lane_range; rw_zonetype : zonetype; rw_states : list (string * (rowtype * list string)); rw_groups : groups }.
Record dirrule := mk_dirrule { du_id : string; du_zone : lane_range; du_states : list (string * (dirtype * dirseverity)) }.
(** DiscreteValueRule::DiscreteValueRule, discrete_value_rule.cc 40-52. *)
Definition DiscreteValueRule (id type : string) (zone : list lane_range) (vs : list dval) : outcome drule :=
  check! negb (Nat.eqb (length vs) 0) in
  check! forallb (fun v => groups_ok (dv_rules v) && groups_ok (dv_ids v) && Z.leb 0 (dv_severity v) && Nat.eqb (length (filter (fun w => dval_eqb w v) vs)) 1) vs in
  Ok (mk_drule id type zone vs).
(** RangeValueRule::RangeValueRule, range_value_rule.cc 40-53. *)
Definition RangeValueRule (id type : string) (zone : list lane_range) (vs : list rval) : outcome rrule :=
  check! negb (Nat.eqb (length vs) 0) in
  check! forallb (fun v => groups_ok (rv_rules v) && groups_ok (rv_ids v) && Z.leb 0 (rv_severity v) && Dleb (rv_min v) (rv_max v) && Nat.eqb (length (filter (fun w => rval_eqb w v) vs)) 1) vs in
  Ok (mk_rrule id type zone vs).
(** RightOfWayRule::RightOfWayRule, right_of_way_rule.h 166-185. *)
Fixpoint emplace_all {V} (l : list (string * V)) (m : list (string * V)) : outcome (list (string * V)) :=
  match l with [] => Ok m | (k, v) :: l' => check! negb (mhas String.eqb k m) in emplace_all l' (m ++ [(k, v)])%list end.
Definition RightOfWayRule (id : string) (zone : list lane_range) (zt : zonetype) (states : list (string * (rowtype * list string))) (gs : groups) : outcome rowrule :=
  check! Nat.leb 1 (length states) in let! m := emplace_all states [] in
  check! forallb (fun g => forallb (fun x => Nat.eqb (count_in x (snd g)) 1) (snd g)) gs in Ok (mk_rowrule id zone zt m gs).
(** DirectionUsageRule::DirectionUsageRule, direction_usage_rule.h 136-143. *)
Definition DirectionUsageRule (id : string) (zone : lane_range) (states : list (string * (dirtype * dirseverity))) : outcome dirrule :=
  check! Nat.leb 1 (length states) in let! m := emplace_all states [] in Ok (mk_dirrule id zone m).
(** ManualRulebook: the rules by id.  AddRule, manual_rulebook.cc 122-134 and 301-308 (the index
    by lane: Rulebook_Model). *)
Record rulebook := mk_rulebook { bk_rows : list (string * rowrule); bk_dirs : list (string * dirrule); bk_discrete : list (string * drule); bk_range : list (string * rrule) }.
Definition empty_book : rulebook := mk_rulebook [] [] [] [].
Definition add_row (r : rowrule) (b : rulebook) : outcome rulebook :=
  let! m := conv (memplace String.eqb (rw_id r) r (bk_rows b)) in Ok (mk_rulebook m (bk_dirs b) (bk_discrete b) (bk_range b)).
Definition add_dir (r : dirrule) (b : rulebook) : outcome rulebook :=
  let! m := conv (memplace String.eqb (du_id r) r (bk_dirs b)) in Ok (mk_rulebook (bk_rows b) m (bk_discrete b) (bk_range b)).
Definition add_discrete (r : drule) (b : rulebook) : outcome rulebook :=
  check! negb (mhas String.eqb (dr_id r) (bk_range b)) in
  let! m := conv (memplace String.eqb (dr_id r) r (bk_discrete b)) in Ok (mk_rulebook (bk_rows b) (bk_dirs b) m (bk_range b)).
Definition add_range (r : rrule) (b : rulebook) : outcome rulebook :=
  check! negb (mhas String.eqb (rr_id r) (bk_discrete b)) in
  let! m := conv (memplace String.eqb (rr_id r) r (bk_range b)) in Ok (mk_rulebook (bk_rows b) (bk_dirs b) (bk_discrete b) m).

(** ** LoadRoadRulebook with a rule registry *)
(** What HasValue, api/rules/rule_registry.cc 45-60, looks at in the registered values. *)
Record rule_types := mk_rule_types { ty_discrete : list (string * list (Z * string)); ty_range : list (string * list (Z * string * D * D)) }.
(** BuildDiscreteValueRule 122-132, BuildRangeValueRule 110-120. *)
Definition BuildDiscreteValueRule (reg : rule_types) (id type : string) (zone : list lane_range) (vs : list dval) : outcome drule :=
  let! known := conv (mfind String.eqb type (ty_discrete reg)) in
  check! forallb (fun v => existsb (fun k => Z.eqb (fst k) (dv_severity v) && (snd k =? dv_value v)) known) vs in DiscreteValueRule id type zone vs.
Definition BuildRangeValueRule (reg : rule_types) (id type : string) (zone : list lane_range) (vs : list rval) : outcome rrule :=
  let! known := conv (mfind String.eqb type (ty_range reg)) in
  check! forallb (fun v => existsb (fun k => let '(z, d, lo, hi) := k in Z.eqb z (rv_severity v) && Deqb lo (rv_min v) && Deqb hi (rv_max v) && (d =? rv_desc v)) known) vs in
  RangeValueRule id type zone vs.
(** HasBaseRuleProperties, road_rulebook_loader_using_rule_registry.cc 60-63. *)
Definition HasBaseRuleProperties (n : yaml) : outcome bool :=
  let! a := defined_at n "id" in if a then let! b := defined_at n "type" in if b then defined_at n "zone" else Ok false else Ok false.
(** IsDiscreteValueRule 66-73, IsRangeValueRule 76-83. *)
Definition IsDiscreteValueRule (n : yaml) : outcome bool :=
  let! a := HasBaseRuleProperties n in
  if a then let! vn := get n "values" in if is_defined vn then all_of IsDiscreteValue (items vn) else Ok false else Ok false.
Definition IsRangeValueRule (n : yaml) : outcome bool :=
  let! a := HasBaseRuleProperties n in
  if a then let! vn := get n "ranges" in if is_defined vn then all_of IsRangeValue (items vn) else Ok false else Ok false.
(** EvaluateRuleType 88-94. *)
Definition EvaluateRule (n : yaml) : outcome rtype :=
  check! is_map n in check! negb (Nat.eqb (ysize n) 0) in let! d := IsDiscreteValueRule n in let! r := IsRangeValueRule n in
  Ok (if r then TRange else if d then TDiscrete else Unknown).
(** GetRelatedRuleFromYamlNode 157-168, GetRelatedUniqueIdsFromYamlNode 172-183: the loops, from
    the inside out. *)
Fixpoint push_ids (kn : yaml) (vs : list yaml) (g : groups) : outcome groups :=
  match vs with [] => Ok g | v :: vs' => let! k := as_string kn in let! id := as_id v in push_ids kn vs' (push_to k id g) end.
Fixpoint push_pairs (l : list (yaml * yaml)) (g : groups) : outcome groups :=
  match l with [] => Ok g | (kn, vn) :: l' => obind (push_ids kn (items vn) g) (push_pairs l') end.
Fixpoint push_maps (l : list yaml) (g : groups) : outcome groups :=
  match l with [] => Ok g | n :: l' => obind (push_pairs (pairs n) g) (push_maps l') end.
Definition GetRelated (key : string) (n : yaml) : outcome groups := let! rn := get n key in check! is_seq rn in push_maps (elements rn) [].
(** The values of AddDiscreteValueRule 196-202. *)
Definition GetDiscreteValue (n : yaml) : outcome dval :=
  check! is_map n in let! s := GetSeverity to_int n in let! rr := GetRelated "related_rules" n in let! ru := GetRelated "related_unique_ids" n in
  let! vn := need n "value" in let! v := as_string vn in Ok (mk_dval s rr ru v).
(** The ranges of AddRangeValueRule 219-226, with GetRangeMinMaxValuesFromYamlNode,
    yaml_conversion.cc 114-121. *)
Definition GetRange (n : yaml) : outcome rval :=
  check! is_map n in let! rn := get n "range" in
  match rn with
  | Seq [x; y] => let! lo := as_double x in let! hi := as_double y in check! Dleb lo hi in
      let! s := GetSeverity to_int n in let! rr := GetRelated "related_rules" n in let! ru := GetRelated "related_unique_ids" n in
      let! dn := need n "description" in let! d := as_string dn in Ok (mk_rval s rr ru d lo hi)
  | _ => Throw
  end.
(** AddDiscreteValueRule 190-206, AddRangeValueRule 213-230. *)
Definition AddDiscreteValueRule (reg : rule_types) (n : yaml) (b : rulebook) : outcome rulebook :=
  check! is_map n in let! vn := need n "values" in let! vs := each_ok GetDiscreteValue (items vn) in
  let! idn := need n "id" in let! id := as_id idn in let! tn := need n "type" in let! type := as_id tn in
  let! zn := need n "zone" in let! zone := GetZone "lane_id" "s_range" zn in
  let! r := BuildDiscreteValueRule reg id type zone vs in add_discrete r b.
Definition AddRangeValueRule (reg : rule_types) (n : yaml) (b : rulebook) : outcome rulebook :=
  check! is_map n in let! vn := need n "ranges" in let! vs := each_ok GetRange (items vn) in
  let! idn := need n "id" in let! id := as_id idn in let! tn := need n "type" in let! type := as_id tn in
  let! zn := need n "zone" in let! zone := GetZone "lane_id" "s_range" zn in
  let! r := BuildRangeValueRule reg id type zone vs in add_range r b.
(** BuildFrom 235-257. *)
Definition load_rule (reg : rule_types) (n : yaml) (b : rulebook) : outcome rulebook :=
  let! t := EvaluateRule n in
  match t with TDiscrete => AddDiscreteValueRule reg n b | TRange => AddRangeValueRule reg n b | Unknown => Throw end.
Fixpoint load_rules (reg : rule_types) (l : list yaml) (b : rulebook) : outcome rulebook :=
  match l with [] => Ok b | n :: l' => obind (load_rule reg n b) (load_rules reg l') end.
Definition LoadRoadRulebook (reg : rule_types) (n : yaml) : outcome rulebook :=
  check! is_map n in let! rn := need n "RoadRulebook" in check! is_seq rn in load_rules reg (elements rn) empty_book.

(** ** LoadRoadRulebook, road_rulebook_loader.cc *)
(** convert<YieldGroup>::decode 78-86. *)
Definition as_yield (n : yaml) : outcome (list string) := check! is_seq n in each_ok as_id (elements n).
(** BuildRightOfWayStates 209-241: one state per known name, in this order. *)
Fixpoint row_states (ts : list rowtype) (n : yaml) : outcome (list (string * (rowtype * list string))) :=
  match ts with
  | [] => Ok []
  | t :: ts' => let! sn := get n (rowtype_name t) in
      if is_defined sn then let! y := as_yield sn in let! l := row_states ts' n in Ok ((rowtype_name t, (t, y)) :: l) else row_states ts' n
  end.
Definition BuildRightOfWayStates (n : yaml) : outcome (list (string * (rowtype * list string))) :=
  check! is_map n in let! l := row_states [Go; Stop; StopThenGo] n in check! Nat.eqb (length l) (ysize n) in Ok l.
(** BuildRightOfWayZoneType 243-259. *)
Definition BuildRightOfWayZoneType (n : yaml) : outcome zonetype :=
  let! zn := get n "ZoneType" in
  if is_defined zn then let! s := as_string zn in if s =? "StopExcluded" then Ok StopExcluded else if s =? "StopAllowed" then Ok StopAllowed else Throw
  else Ok StopExcluded.
(** BuildRelatedBulbGroups 261-280. *)
Fixpoint bulb_groups (l : list (yaml * yaml)) (g : groups) : outcome groups :=
  match l with
  | [] => Ok g
  | (kn, vn) :: l' => let! k := as_id kn in let! ids := each_ok as_id (items vn) in let! g' := conv (memplace String.eqb k ids g) in bulb_groups l' g'
  end.
Definition BuildRelatedBulbGroups (n : yaml) : outcome groups :=
  let! gn := get n "RelatedBulbGroups" in if is_defined gn then check! is_map gn in bulb_groups (pairs gn) [] else Ok [].
(** BuildRightOfWayRule 284-298. *)
Definition BuildRightOfWayRule (n : yaml) : outcome rowrule :=
  check! is_map n in let! idn := need n "ID" in let! id := as_id idn in let! sn := need n "States" in let! states := BuildRightOfWayStates sn in
  let! zn := need n "Zone" in let! zone := GetZone "Lane" "SRange" zn in let! zt := BuildRightOfWayZoneType n in let! gs := BuildRelatedBulbGroups n in
  RightOfWayRule id zone zt states gs.
(** GetRuleIdFrom 300-302. *)
Definition GetRuleIdFrom (type id : string) : string := type ++ "/" ++ id.
(** BuildVehicleStopInZoneBehaviourDiscreteValueRule 307-315. *)
Definition stop_in_zone_rule (r : rowrule) : outcome drule :=
  DiscreteValueRule (GetRuleIdFrom VehicleStopInZoneBehaviorRuleTypeId (rw_id r)) VehicleStopInZoneBehaviorRuleTypeId (rw_zone r)
    [mk_dval kStrict [] [] (match rw_zonetype r with StopExcluded => "DoNotStop" | StopAllowed => "UnconstrainedParking" end)].
(** BuildRightOfWayTypeDiscreteValueRule 317-349; FindDiscreteValueFromRightOfWayRuleState,
    phase_ring_book_loader_old_rules.cc 198-228, makes the same value. *)
Definition related_bulb_ids (gs : groups) : list string := flat_map (fun g => map (fun b => group_string (mk_group_uid (fst g) b)) (snd g)) gs.
Definition row_value (row_id : string) (t : rowtype) (yield : list string) (gs : groups) : dval :=
  mk_dval kStrict
    [(VehicleStopInZoneBehaviorRuleTypeId, [GetRuleIdFrom VehicleStopInZoneBehaviorRuleTypeId row_id]); (kYieldGroup, map (GetRuleIdFrom RightOfWayRuleTypeId) yield)]
    [(kBulbGroup, related_bulb_ids gs)] (rowtype_name t).
Definition right_of_way_type_rule (r : rowrule) : outcome drule :=
  DiscreteValueRule (GetRuleIdFrom RightOfWayRuleTypeId (rw_id r)) RightOfWayRuleTypeId (rw_zone r)
    (map (fun s => row_value (rw_id r) (fst (snd s)) (snd (snd s)) (rw_groups r)) (rw_states r)).
(** BuildDirectionUsageStates 358-370, BuildDirectionUsageRule 372-386. *)
Definition direction_state (n : yaml) : outcome (string * (dirtype * dirseverity)) :=
  let! idn := need n "ID" in let! vn := need n "Severity" in let! tn := need n "Type" in let! id := as_id idn in
  let! ts := as_string tn in let! t := conv (dirtype_of ts) in let! vs := as_string vn in let! v := conv (dirseverity_of vs) in Ok (id, (t, v)).
Definition BuildDirectionUsageRule (n : yaml) : outcome dirrule :=
  check! is_map n in let! idn := need n "ID" in let! id := as_id idn in let! sn := need n "States" in check! is_seq sn in
  let! states := each_ok direction_state (elements sn) in let! zn := need n "Zone" in let! zone := GetLaneSRange "Lane" "SRange" zn in
  DirectionUsageRule id zone states.
(** BuildFrom 390-420. *)
Definition load_row (n : yaml) (b : rulebook) : outcome rulebook :=
  let! r := BuildRightOfWayRule n in let! s := stop_in_zone_rule r in let! b1 := add_row r b in let! b2 := add_discrete s b1 in
  let! t := right_of_way_type_rule r in add_discrete t b2.
Fixpoint load_rows (l : list yaml) (b : rulebook) : outcome rulebook :=
  match l with [] => Ok b | n :: l' => obind (load_row n b) (load_rows l') end.
Fixpoint load_dirs (l : list yaml) (b : rulebook) : outcome rulebook :=
  match l with [] => Ok b | n :: l' => let! r := BuildDirectionUsageRule n in obind (add_dir r b) (load_dirs l') end.
Definition LoadRoadRulebookOldRules (n : yaml) : outcome rulebook :=
  check! is_map n in let! bn := need n "RoadRulebook" in check! is_map bn in
  let! rn := need bn "RightOfWayRules" in check! is_seq rn in let! b := load_rows (elements rn) empty_book in
  let! dn := need bn "DirectionUsageRules" in check! is_seq dn in load_dirs (elements dn) b.

(** ** LoadPhaseRingBookOldRules, phase_ring_book_loader_old_rules.cc *)
(** GetRules 110-119. *)
Fixpoint get_row_rules (b : rulebook) (l : list yaml) (acc : list (string * rowrule)) : outcome (list (string * rowrule)) :=
  match l with
  | [] => Ok acc
  | n :: l' => let! id := as_id n in let! r := conv (mfind String.eqb id (bk_rows b)) in
      get_row_rules b l' (if mhas String.eqb id acc then acc else (acc ++ [(id, r)])%list)
  end.
Definition GetRules (b : rulebook) (n : yaml) : outcome (list (string * rowrule)) := check! is_seq n in get_row_rules b (items n) [].
(** GetDefaultState 124-136 (the process is aborted when there is none); returns the id. *)
Definition default_row_state (states : list (string * (rowtype * list string))) : outcome string :=
  match find (fun s => rowtype_eqb (fst (snd s)) Stop) states with
  | Some s => Ok (fst s)
  | None => match find (fun s => rowtype_eqb (fst (snd s)) StopThenGo) states with
            | Some s => Ok (fst s)
            | None => match find (fun s => rowtype_eqb (fst (snd s)) Go) states with Some s => Ok (fst s) | None => UB end
            end
  end.
(** CreateDefaultRuleStates 141-147. *)
Definition default_row_states (rs : list (string * rowrule)) : outcome (list (string * string)) :=
  each_ok (fun r => omap (fun s => (fst r, s)) (default_row_state (rw_states (snd r)))) rs.
(** The states written in a phase, 311-316. *)
Fixpoint set_row_states (l : list (yaml * yaml)) (acc : list (string * string)) : outcome (list (string * string)) :=
  match l with
  | [] => Ok acc
  | (kn, vn) :: l' => let! id := as_id kn in let! s := as_id vn in check! mhas String.eqb id acc in set_row_states l' (mset String.eqb id s acc)
  end.
(** LoadDiscreteValueRuleStates 230-246. *)
Definition row_discrete_state (b : rulebook) (id state : string) : outcome (string * dval) :=
  let rid := GetRuleIdFrom RightOfWayRuleTypeId id in
  let! rule := conv (mfind String.eqb rid (bk_discrete b)) in let! row := conv (mfind String.eqb id (bk_rows b)) in
  let! s := conv (mfind String.eqb state (rw_states row)) in
  let v := row_value id (fst s) (snd s) (rw_groups row) in
  check! existsb (fun w => dval_eqb w v) (dr_values rule) in Ok (rid, v).
Definition LoadDiscreteValueRuleStates (b : rulebook) (states : list (string * string)) : outcome (list (string * dval)) :=
  let! l := each_ok (fun s => row_discrete_state b (fst s) (snd s)) states in emplace_all l [].
(** The phases of BuildPhaseRing, 300-319: id, states of right of way rules, of discrete value
    rules and of bulbs. *)
Record old_phase := mk_old_phase { op_id : string; op_rows : list (string * string); op_values : list (string * dval); op_bulbs : option (list (bulb_key * bstate)) }.
Definition load_old_phase (b : rulebook) (lights : list (traffic_light (D := D))) (rs : list (string * rowrule)) (n : yaml) : outcome old_phase :=
  check! is_map n in let! idn := need n "ID" in let! id := as_id idn in let! d := default_row_states rs in
  let! sn := need n "RightOfWayRuleStates" in check! is_map sn in let! states := set_row_states (pairs sn) d in
  let! values := LoadDiscreteValueRuleStates b states in let! bulbs := LoadBulbStates null_text lights n in Ok (mk_old_phase id states values bulbs).
(** BuildNextPhases 256-285, as in Loaders_Model. *)
Definition old_phase_exists (ps : list old_phase) (id : string) : bool := existsb (fun p => op_id p =? id) ps.
Definition old_next (ps : list old_phase) (n : yaml) : outcome (string * option D) :=
  check! is_map n in let! idn := need n "ID" in let! id := as_id idn in check! old_phase_exists ps id in
  let! dn := get n "duration_until" in let! d := if is_defined dn then omap Some (as_double dn) else Ok None in Ok (id, d).
Fixpoint old_nexts (ps : list old_phase) (l : list (yaml * yaml)) (acc : list (string * list (string * option D))) : outcome (list (string * list (string * option D))) :=
  match l with
  | [] => Ok acc
  | (kn, vn) :: l' => let! id := as_id kn in check! old_phase_exists ps id in check! is_seq vn in
      let! ns := each_ok (old_next ps) (elements vn) in old_nexts ps l' (if mhas String.eqb id acc then acc else (acc ++ [(id, ns)])%list)
  end.
Definition OldBuildNextPhases (ps : list old_phase) (n : yaml) : outcome (option (list (string * list (string * option D)))) :=
  let! gn := get n "PhaseTransitionGraph" in if is_defined gn then check! is_map n in omap Some (old_nexts ps (pairs gn) []) else Ok None.
(** BuildPhaseRing 287-324: the arguments of the constructor of PhaseRing (that one: Phases_Model). *)
Definition BuildPhaseRingOldRules (b : rulebook) (lights : list (traffic_light (D := D))) (n : yaml) : outcome (string * list old_phase * option (list (string * list (string * option D)))) :=
  check! is_map n in let! idn := need n "ID" in let! id := as_id idn in let! rn := get n "Rules" in let! rs := GetRules b rn in
  let! pn := need n "Phases" in check! is_seq pn in let! ps := each_ok (load_old_phase b lights rs) (elements pn) in
  let! next := OldBuildNextPhases ps n in Ok (id, ps, next).

(** ** LoadIntersectionBook, intersection_book_loader.cc *)
(** A PhaseRing: its phases in the order of iteration, each with the ids of its discrete value
    rules and of its right of way rules; its next phases.  Every ring has an entry there for
    every phase (Phases_Model.make_next). *)
Record pring := mk_pring { pr_phases : list (string * (list string * list string)); pr_next : list (string * list (string * option D)) }.
(** ManualPhaseProvider: phase, next phase and duration by ring. *)
Definition presult : Type := string * option (string * option D).
Definition pprovider : Type := list (string * presult).
(** AddPhaseRing, manual_phase_provider.cc 78-91, SetPhase 93-100, with ComputeNext 111-118. *)
Definition compute_next (next : option string) (dur : option D) : option (string * option D) := match next with Some n => Some (n, dur) | None => None end.
Definition duration_ok (next : option string) (dur : option D) : bool := match dur, next with Some _, None => false | _, _ => true end.
Definition AddPhaseRing (id ph : string) (next : option string) (dur : option D) (m : pprovider) : outcome pprovider :=
  check! duration_ok next dur in conv (memplace String.eqb id (ph, compute_next next dur) m).
Definition SetPhase (id ph : string) (next : option string) (dur : option D) (m : pprovider) : outcome pprovider :=
  check! duration_ok next dur in check! mhas String.eqb id m in Ok (mset String.eqb id (ph, compute_next next dur) m).
(** GetRegionOfOldRules 61-74, GetRegion 76-86. *)
Definition GetRegion (b : rulebook) (ids : list string) : outcome (list lane_range) :=
  omap (@List.concat _) (each_ok (fun id => omap dr_zone (conv (mfind String.eqb id (bk_discrete b)))) ids).
Definition GetRegionOfOldRules (b : rulebook) (ids : list string) : outcome (list lane_range) :=
  omap (@List.concat _) (each_ok (fun id => omap rw_zone (conv (mfind String.eqb id (bk_rows b)))) ids).
Record intersection := mk_intersection { in_id : string; in_region : list lane_range; in_ring : string }.
(** BuildIntersection 88-125.  The ids, the ring and the phase, 92-102: *)
Definition intersection_keys (rings : list (string * pring)) (n : yaml) : outcome (string * string * string * pring) :=
  check! is_map n in let! idn := need n "ID" in let! rn := need n "PhaseRing" in let! pn := need n "InitialPhase" in
  let! id := as_id idn in let! rid := as_id rn in let! pid := as_id pn in let! ring := conv (mfind String.eqb rid rings) in
  check! Nat.ltb 0 (length (pr_phases ring)) in check! mhas String.eqb pid (pr_phases ring) in Ok (id, rid, pid, ring).
(** ... the phase given to the provider, 103-117: *)
Definition provide_phase (ring : pring) (rid pid : string) (m : pprovider) : outcome pprovider :=
  let! ns := conv (mfind String.eqb pid (pr_next ring)) in
  let '(next, dur) := match ns with [] => (None, None) | (i, d) :: _ => (Some i, d) end in
  if mhas String.eqb rid m then SetPhase rid pid next dur m else AddPhaseRing rid pid next dur m.
(** ... and the region, 118-123. *)
Definition ring_region (b : rulebook) (ring : pring) : outcome (list lane_range) :=
  match pr_phases ring with
  | [] => UB
  | (_, (ds, ros)) :: _ => let! r := GetRegion b ds in match r with [] => GetRegionOfOldRules b ros | _ => Ok r end
  end.
(** The provider is written on the way: it is a result also when the call throws. *)
Definition BuildIntersection (b : rulebook) (rings : list (string * pring)) (n : yaml) (m : pprovider) : outcome intersection * pprovider :=
  match intersection_keys rings n with
  | Ok (id, rid, pid, ring) =>
      match provide_phase ring rid pid m with
      | Ok m' => (omap (fun r => mk_intersection id r rid) (ring_region b ring), m')
      | Throw => (Throw, m)
      | UB => (UB, m)
      end
  | Throw => (Throw, m)
  | UB => (UB, m)
  end.
(** AddIntersection, intersection_book.cc 54-60; a repeated id reaches line 58, see
    Intersections_Model: [moves]. *)
Definition AddIntersection (moves : bool) (i : intersection) (l : list intersection) : outcome (list intersection) :=
  if existsb (fun j => in_id j =? in_id i) l then (if moves then UB else Throw) else Ok (l ++ [i])%list.
Fixpoint load_intersections (moves : bool) (b : rulebook) (rings : list (string * pring)) (l : list yaml) (acc : list intersection) (m : pprovider) : outcome (list intersection) * pprovider :=
  match l with
  | [] => (Ok acc, m)
  | n :: l' => match BuildIntersection b rings n m with
               | (Ok i, m') => match AddIntersection moves i acc with
                               | Ok acc' => load_intersections moves b rings l' acc' m'
                               | Throw => (Throw, m')
                               | UB => (UB, m')
                               end
               | (Throw, m') => (Throw, m')
               | (UB, m') => (UB, m')
               end
  end.
(** BuildFrom 127-142. *)
Definition LoadIntersectionBook (moves : bool) (b : rulebook) (rings : list (string * pring)) (n : yaml) (m : pprovider) : outcome (list intersection) * pprovider :=
  match n with
  | Map l => match lookup "Intersections" l with
             | Undefined => (Ok [], m)
             | Seq es => load_intersections moves b rings es [] m
             | _ => (Throw, m)
             end
  | _ => (Throw, m)
  end.
End RuleLoaders.
