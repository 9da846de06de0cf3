(** Models of the YAML loaders: src/maliput/base/traffic_light_book_loader.cc,
    phase_ring_book_loader.cc, rule_registry_loader.cc and yaml_conversion.cc, with the
    constructors of src/maliput/api/rules/traffic_lights.cc and
    src/maliput/base/traffic_light_book.cc.
    Documents are given parsed.  yaml-cpp is not part of the repository; what is used of it
    is written down here: lookup by key, iteration, conversion of scalars.  Ids are strings.
    [D] stands for double.  An abort of the process (MALIPUT_ABORT_MESSAGE) is [UB]. *)
From Coq Require Import String List Bool Arith ZArith.
From Verif Require Import Base Maps.
Import ListNotations.
Local Open Scope string_scope.

(** YAML::Node.  [Undefined]: the (zombie) result of looking up a key that is not there. *)
Inductive yaml := Undefined | Null | Scalar (s : string) | Seq (l : list yaml) | Map (l : list (yaml * yaml)).
Definition is_defined (n : yaml) : bool := match n with Undefined => false | _ => true end.
Definition is_map (n : yaml) : bool := match n with Map _ => true | _ => false end.
Definition is_seq (n : yaml) : bool := match n with Seq _ => true | _ => false end.
(** node.size() *)
Definition ysize (n : yaml) : nat := match n with Seq l => length l | Map l => length l | _ => 0 end.
Fixpoint lookup (k : string) (l : list (yaml * yaml)) : yaml :=
  match l with
  | [] => Undefined
  | (Scalar k', v) :: l' => if String.eqb k k' then v else lookup k l'
  | _ :: l' => lookup k l'
  end.
(** node[key] for a const node: throws on undefined nodes and on scalars. *)
Definition get (n : yaml) (k : string) : outcome yaml :=
  match n with Map l => Ok (lookup k l) | Null | Seq _ => Ok Undefined | Undefined | Scalar _ => Throw end.
(** for (const auto& it : node) with it.first and it.second *)
Definition pairs (n : yaml) : list (yaml * yaml) :=
  match n with Map l => l | Seq l => map (fun _ => (Undefined, Undefined)) l | _ => [] end.
(** for (const YAML::Node& it : node) for sequences *)
Definition elements (n : yaml) : list yaml := match n with Seq l => l | _ => [] end.
Fixpoint each_ok {A B} (f : A -> outcome B) (l : list A) : outcome (list B) :=
  match l with [] => Ok [] | x :: l' => obind (f x) (fun y => obind (each_ok f l') (fun ys => Ok (y :: ys))) end.

(** BulbColor, BulbType, BulbState and their names, traffic_lights.cc 42-63. *)
Inductive bcolor := Red | Yellow | Green.
Inductive btype := Round | Arrow.
Inductive bstate := Off | On | Blinking.
Definition color_of (s : string) : option bcolor := if s =? "Red" then Some Red else if s =? "Yellow" then Some Yellow else if s =? "Green" then Some Green else None.
Definition type_of (s : string) : option btype := if s =? "Round" then Some Round else if s =? "Arrow" then Some Arrow else None.
Definition state_of (s : string) : option bstate := if s =? "Off" then Some Off else if s =? "On" then Some On else if s =? "Blinking" then Some Blinking else None.
Definition bstate_eqb (a b : bstate) : bool := match a, b with Off, Off | On, On | Blinking, Blinking => true | _, _ => false end.
(** Throws unless a conversion succeeds. *)
Definition conv {A} (o : option A) : outcome A := match o with Some a => Ok a | None => Throw end.

Local Notation "'let!' x ':=' e 'in' k" := (obind e (fun x => k)) (at level 200, x name, k at level 200).
Local Notation "'check!' c 'in' k" := (throw_unless c k) (at level 200, k at level 200).

Section Loaders.
Context {D : Type}.
(** Conversions of scalars by yaml-cpp; [null_text]: what as<std::string>() gives for a null
    (depends on the version). *)
Variables (to_double : string -> option D) (to_int : string -> option Z) (null_text : option string) (Dleb Deqb : D -> D -> bool).
Definition as_string (n : yaml) : outcome string :=
  match n with Scalar s => Ok s | Null => conv null_text | _ => Throw end.
(** TypeSpecificIdentifier, include/maliput/api/type_specific_identifier.h 74-76. *)
Definition as_id (n : yaml) : outcome string := let! s := as_string n in check! negb (s =? "") in Ok s.
Definition as_double (n : yaml) : outcome D := match n with Scalar s => conv (to_double s) | _ => Throw end.
Definition as_int (n : yaml) : outcome Z := match n with Scalar s => conv (to_int s) | _ => Throw end.
(** node[key] after MALIPUT_THROW_UNLESS(node[key].IsDefined()) *)
Definition need (n : yaml) (k : string) : outcome yaml := let! v := get n k in check! is_defined v in Ok v.

(** ** Traffic lights *)
Definition vec3 : Type := D * D * D.
Definition vec4 : Type := D * D * D * D.
(** Bulb, BulbGroup, TrafficLight.  The rotation is what is passed to set_quat; [b_box]: None
    for the default box. *)
Record bulb := mk_bulb { b_id : string; b_pos : vec3; b_rot : vec4; b_color : bcolor; b_type : btype; b_arrow : option D; b_states : list bstate; b_box : option (vec3 * vec3) }.
Record bulb_group := mk_bulb_group { bg_id : string; bg_pos : vec3; bg_rot : vec4; bg_bulbs : list bulb }.
Record traffic_light := mk_traffic_light { tl_id : string; tl_pos : vec3; tl_rot : vec4; tl_groups : list bulb_group }.

(** convert<InertialPosition>::decode, traffic_light_book_loader.cc 73-81. *)
Definition as_vec3 (n : yaml) : outcome vec3 :=
  match n with Seq [a; b; c] => let! x := as_double a in let! y := as_double b in let! z := as_double c in Ok (x, y, z) | _ => Throw end.
(** convert<Rotation>::decode, 100-108. *)
Definition as_vec4 (n : yaml) : outcome vec4 :=
  match n with Seq [a; b; c; d] => let! w := as_double a in let! x := as_double b in let! y := as_double c in
  let! z := as_double d in Ok (w, x, y, z) | _ => Throw end.
(** convert<Bulb::BoundingBox>::decode, 135-150, after IsMap(). *)
Definition as_box (n : yaml) : outcome (vec3 * vec3) :=
  check! is_map n in let! a := get n "min" in let! b := get n "max" in let! lo := as_vec3 a in let! hi := as_vec3 b in Ok (lo, hi).
(** convert<std::vector<BulbState>>::decode, 218-237. *)
Definition as_states (n : yaml) : outcome (list bstate) :=
  check! is_seq n in each_ok (fun e => let! s := as_string e in conv (state_of s)) (elements n).
(** Bulb::Bulb, traffic_lights.cc 65-84. *)
Definition Bulb (id : string) (pos : vec3) (rot : vec4) (c : bcolor) (t : btype) (arrow : option D) (st : list bstate) (box : option (vec3 * vec3)) : outcome bulb :=
  check! match t, arrow with Arrow, Some _ | Round, None => true | _, _ => false end in Ok (mk_bulb id pos rot c t arrow (match st with [] => [Off; On] | _ => st end) box).
(** BuildBulb, traffic_light_book_loader.cc 245-289. *)
Definition BuildBulb (n : yaml) : outcome bulb :=
  check! is_map n in let! idn := need n "ID" in let! id := as_id idn in let! pose := need n "Pose" in
  check! is_map pose in let! pn := need pose "position_bulb_group" in let! rn := need pose "orientation_bulb_group" in
  let! pos := as_vec3 pn in let! rot := as_vec4 rn in let! bn := get n "BoundingBox" in
  let! box := if is_defined bn then omap Some (as_box bn) else Ok None in let! cn := need n "Color" in
  let! cs := as_string cn in let! c := conv (color_of cs) in let! tn := need n "Type" in let! ts := as_string tn in
  let! t := conv (type_of ts) in
  let! arrow := match t with Arrow => let! an := need n "ArrowOrientation" in omap Some (as_double an) | Round => Ok None end in
  let! sn := get n "States" in
  let! st := if is_defined sn then as_states sn else Ok [On; Off] in Bulb id pos rot c t arrow st box.
Definition count_id {A} (f : A -> string) (s : string) (l : list A) : nat := length (filter (fun x => s =? f x) l).
(** BulbGroup::BulbGroup, traffic_lights.cc 105-119. *)
Definition BulbGroup (id : string) (pos : vec3) (rot : vec4) (bs : list bulb) : outcome bulb_group :=
  check! negb (Nat.eqb (length bs) 0) in check! forallb (fun b => Nat.eqb (count_id b_id (b_id b) bs) 1) bs in Ok (mk_bulb_group id pos rot bs).
(** BuildBulbGroup, traffic_light_book_loader.cc 291-311. *)
Definition BuildBulbGroup (n : yaml) : outcome bulb_group :=
  check! is_map n in let! idn := need n "ID" in let! id := as_id idn in let! pose := need n "Pose" in
  check! is_map pose in let! pn := need pose "position_traffic_light" in
  let! rn := need pose "orientation_traffic_light" in let! pos := as_vec3 pn in let! rot := as_vec4 rn in
  let! bn := need n "Bulbs" in check! is_seq bn in
  let! bs := each_ok BuildBulb (elements bn) in BulbGroup id pos rot bs.
(** TrafficLight::TrafficLight, traffic_lights.cc 143-159. *)
Definition TrafficLight (id : string) (pos : vec3) (rot : vec4) (gs : list bulb_group) : outcome traffic_light :=
  check! forallb (fun g => Nat.eqb (count_id bg_id (bg_id g) gs) 1) gs in Ok (mk_traffic_light id pos rot gs).
(** BuildTrafficLight, traffic_light_book_loader.cc 313-332. *)
Definition BuildTrafficLight (n : yaml) : outcome traffic_light :=
  check! is_map n in let! idn := get n "ID" in let! id := as_id idn in let! pose := need n "Pose" in
  check! is_map pose in let! pn := need pose "position_road_network" in
  let! rn := need pose "orientation_road_network" in let! pos := as_vec3 pn in let! rot := as_vec4 rn in
  let! bn := need n "BulbGroups" in check! is_seq bn in
  let! gs := each_ok BuildBulbGroup (elements bn) in TrafficLight id pos rot gs.
(** TrafficLightBook::AddTrafficLight, traffic_light_book.cc 50-57. *)
Fixpoint add_lights (l : list traffic_light) (book : list traffic_light) : outcome (list traffic_light) :=
  match l with [] => Ok book | t :: l' => check! negb (existsb (fun u => tl_id t =? tl_id u) book) in add_lights l' (book ++ [t])%list end.
(** BuildFrom, traffic_light_book_loader.cc 334-344.  Building and adding alternate in C++;
    both only throw, nothing of the book survives a throw. *)
Definition LoadTrafficLightBook (n : yaml) : outcome (list traffic_light) :=
  check! is_map n in let! ln := need n "TrafficLights" in check! is_seq ln in let! l := each_ok BuildTrafficLight (elements ln) in add_lights l [].
(** GetTrafficLight, GetBulbGroup, GetBulb: traffic_light_book.cc 66-69, traffic_lights.cc
    121-128 and 169-176. *)
Definition GetTrafficLight (book : list traffic_light) (id : string) : option traffic_light := find (fun t => id =? tl_id t) book.
Definition GetBulbGroup (t : traffic_light) (id : string) : option bulb_group := find (fun g => id =? bg_id g) (tl_groups t).
Definition GetBulb (g : bulb_group) (id : string) : option bulb := find (fun b => id =? b_id b) (bg_bulbs g).
(** Bulb::GetDefaultState, traffic_lights.cc 86-93. *)
Definition bulb_default (b : bulb) : outcome bstate :=
  match find (fun s => existsb (bstate_eqb s) (b_states b)) [Off; Blinking; On] with Some s => Ok s | None => UB end.

(** ** Phase rings *)
(** A discrete value: its string and the rest (severity, related rules, ...). *)
Context {R : Type}.
Definition dvalue : Type := string * R.
(** The discrete value rules of the rulebook: id and states. *)
Definition rules : Type := list (string * list dvalue).
Definition bulb_key : Type := string * string * string.
Definition key_eqb (a b : bulb_key) : bool := let '(x, y, z) := a in let '(u, v, w) := b in (x =? u) && (y =? v) && (z =? w).
Record lphase := mk_lphase { lp_id : string; lp_rules : list (string * dvalue); lp_bulbs : option (list (bulb_key * bstate)) }.

(** GetRightOfWayTypeRules, phase_ring_book_loader.cc 102-114.  GetDiscreteValueRule throws
    for unknown ids. *)
Fixpoint get_rules (book : rules) (l : list yaml) (acc : rules) : outcome rules :=
  match l with
  | [] => Ok acc
  | n :: l' => let! id := as_id n in
  let! states := conv (mfind String.eqb id book) in get_rules book l' (if mhas String.eqb id acc then acc else (acc ++ [(id, states)])%list)
  end.
Definition GetRightOfWayTypeRules (book : rules) (n : yaml) : outcome rules :=
  check! is_seq n in match book with [] => Ok [] | _ => get_rules book (elements n) [] end.
(** GetDefaultState, 116-124. *)
Definition GetDefaultState (vs : list dvalue) : outcome dvalue :=
  match find (fun v => fst v =? "Stop") vs with
  | Some v => Ok v
  | None => match find (fun v => fst v =? "StopThenGo") vs with
            | Some v => Ok v
            | None => match find (fun v => fst v =? "Go") vs with Some v => Ok v | None => UB end
            end
  end.
(** CreateDefaultRuleStates, 129-135. *)
Definition CreateDefaultRuleStates (rs : rules) : outcome (list (string * dvalue)) := each_ok (fun r => omap (fun v => (fst r, v)) (GetDefaultState (snd r))) rs.
(** ConfirmBulbsExist, 138-143. *)
Definition ConfirmBulbsExist (g : bulb_group) (n : yaml) : outcome unit :=
  omap (fun _ => tt) (each_ok (fun p => let! id := as_id (fst p) in conv (GetBulb g id)) (pairs n)).
(** The bulbs of one group, 166-173. *)
Definition set_bulbs (tl : string) (g : bulb_group) (n : yaml) : list bulb -> list (bulb_key * bstate) -> outcome (list (bulb_key * bstate)) :=
  fix go bs acc := match bs with
  | [] => Ok acc
  | b :: bs' => let! d := bulb_default b in let! sn := get n (b_id b) in
  let! st := if is_defined sn then let! s := as_string sn in conv (state_of s) else Ok d in go bs' (mset key_eqb (tl, bg_id g, b_id b) st acc)
  end.
(** The groups of one light, 158-174. *)
Definition set_groups (t : traffic_light) : list (yaml * yaml) -> list (bulb_key * bstate) -> outcome (list (bulb_key * bstate)) :=
  fix go l acc := match l with
  | [] => Ok acc
  | (kn, bn) :: l' => let! id := as_id kn in let! g := conv (GetBulbGroup t id) in check! is_map bn in
  let! _ := ConfirmBulbsExist g bn in obind (set_bulbs (tl_id t) g bn (bg_bulbs g) acc) (go l')
  end.
(** The lights, 150-175. *)
Definition set_lights (book : list traffic_light) : list (yaml * yaml) -> list (bulb_key * bstate) -> outcome (list (bulb_key * bstate)) :=
  fix go l acc := match l with
  | [] => Ok acc
  | (kn, gn) :: l' => let! id := as_id kn in let! t := conv (GetTrafficLight book id) in
  check! is_map gn in obind (set_groups t (pairs gn) acc) (go l')
  end.
(** LoadBulbStates, 145-178. *)
Definition LoadBulbStates (book : list traffic_light) (n : yaml) : outcome (option (list (bulb_key * bstate))) :=
  let! sn := get n "TrafficLightStates" in if is_defined sn then check! is_map sn in omap Some (set_lights book (pairs sn) []) else Ok None.
(** The states of a phase over those of the phases before, 255-265. *)
Fixpoint set_rules (rs : rules) (l : list (yaml * yaml)) (acc : list (string * dvalue)) : outcome (list (string * dvalue)) :=
  match l with
  | [] => Ok acc
  | (kn, vn) :: l' => let! id := as_id kn in let! s := as_string vn in let! vs := conv (mfind String.eqb id rs) in
  let! v := conv (find (fun v => fst v =? s) vs) in
  check! mhas String.eqb id acc in set_rules rs l' (mset String.eqb id v acc)
  end.
(** The loop over the phases, 234-267. *)
Fixpoint load_phases (book : list traffic_light) (rs : rules) (l : list yaml) (acc : list (string * dvalue)) : outcome (list lphase) :=
  match l with
  | [] => Ok []
  | n :: l' => check! is_map n in let! idn := need n "ID" in let! id := as_id idn in
  let! sn := get n "RightOfWayRuleStates" in
  check! if is_defined sn then is_map sn && negb (Nat.ltb 0 (ysize sn) && Nat.eqb (length acc) 0) else true in
  let! acc' := set_rules rs (pairs sn) acc in let! bs := LoadBulbStates book n in
  let! ps := load_phases book rs l' acc' in Ok (mk_lphase id acc' bs :: ps)
  end.
Definition next_phase : Type := string * option D.
(** VerifyPhaseExists, 180-184. *)
Definition phase_exists (ps : list lphase) (id : string) : bool := existsb (fun p => lp_id p =? id) ps.
(** BuildNextPhases, 186-215. *)
Definition build_next (ps : list lphase) (n : yaml) : outcome next_phase :=
  check! is_map n in let! idn := need n "ID" in let! id := as_id idn in check! phase_exists ps id in
  let! dn := get n "duration_until" in
  let! d := if is_defined dn then omap Some (as_double dn) else Ok None in Ok (id, d).
Fixpoint build_nexts (ps : list lphase) (l : list (yaml * yaml)) (acc : list (string * list next_phase)) : outcome (list (string * list next_phase)) :=
  match l with
  | [] => Ok acc
  | (kn, vn) :: l' => let! id := as_id kn in check! phase_exists ps id in check! is_seq vn in
  let! ns := each_ok (build_next ps) (elements vn) in build_nexts ps l' (if mhas String.eqb id acc then acc else (acc ++ [(id, ns)])%list)
  end.
Definition BuildNextPhases (ps : list lphase) (n : yaml) : outcome (option (list (string * list next_phase))) :=
  let! gn := get n "PhaseTransitionGraph" in if is_defined gn then check! is_map n in omap Some (build_nexts ps (pairs gn) []) else Ok None.
(** BuildPhaseRing, 217-271: the arguments of the constructor of PhaseRing (that one:
    Phases_Model). *)
Definition BuildPhaseRing (rulebook : rules) (book : list traffic_light) (n : yaml) : outcome (string * list lphase * option (list (string * list next_phase))) :=
  check! is_map n in let! idn := need n "ID" in let! id := as_id idn in let! rn := get n "Rules" in
  let! rs := GetRightOfWayTypeRules rulebook rn in let! defaults := CreateDefaultRuleStates rs in
  let! pn := need n "Phases" in check! is_seq pn in let! ps := load_phases book rs (elements pn) defaults in
  let! next := BuildNextPhases ps n in Ok (id, ps, next).

(** ** Rule registry *)
(** The attributes of a discrete value or a range; related rules and unique ids are keys
    without ids at this point. *)
Record rattr := mk_rattr { ra_severity : Z; ra_rules : list string; ra_ids : list string }.
Inductive rvalue := Discrete (a : rattr) (v : string) | Range (a : rattr) (d : string) (lo hi : D).
Definition defined_at (n : yaml) (k : string) : outcome bool := omap is_defined (get n k).
Definition b2n (b : bool) : nat := if b then 1 else 0.
(** The optional attributes present, yaml_conversion.cc 74-83. *)
Definition optional_attributes (n : yaml) : outcome nat :=
  let! a := defined_at n "severity" in let! b := defined_at n "related_rules" in
  let! c := defined_at n "related_unique_ids" in Ok (b2n a + b2n b + b2n c).
(** IsDiscreteValue 70-85, IsRangeValue 87-103. *)
Definition IsDiscreteValue (n : yaml) : outcome bool :=
  let! v := defined_at n "value" in if v then omap (fun k => Nat.eqb (ysize n) (1 + k)) (optional_attributes n) else Ok false.
Definition IsRangeValue (n : yaml) : outcome bool :=
  let! r := defined_at n "range" in if r then let! d := defined_at n "description" in if d then omap (fun k => Nat.eqb (ysize n) (2 + k)) (optional_attributes n) else Ok false else Ok false.
Inductive rtype := Unknown | TDiscrete | TRange.
(** EvaluateRuleType, rule_registry_loader.cc 79-100. *)
Fixpoint evaluate (l : list yaml) (t : rtype) : outcome rtype :=
  match l with
  | [] => Ok t
  | n :: l' => check! is_map n in let! d := IsDiscreteValue n in if d then match t with TRange => Ok Unknown | _ => evaluate l' TDiscrete end
      else let! r := IsRangeValue n in if r then match t with TDiscrete => Ok Unknown | _ => evaluate l' TRange end else evaluate l' t
  end.
Definition EvaluateRuleType (n : yaml) : outcome rtype := check! is_seq n in check! negb (Nat.eqb (ysize n) 0) in evaluate (elements n) Unknown.
(** GetSeverityFromYamlNode, yaml_conversion.cc 105-112; kStrict is 0. *)
Definition GetSeverity (n : yaml) : outcome Z := let! s := get n "severity" in if is_defined s then let! z := as_int s in check! Z.leb 0 z in Ok z else Ok 0%Z.
(** GetRelatedRuleFromYamlNode and GetRelatedUniqueIdsFromYamlNode with the conversion to a
    map, rule_registry_loader.cc 58-69 and 103-113. *)
Definition keys_of (n : yaml) (k : string) : outcome (list string) :=
  let! v := get n k in if is_defined v then check! is_seq v in omap (nodup string_dec) (each_ok as_string (elements v)) else Ok [].
Definition attributes (n : yaml) : outcome rattr :=
  let! s := GetSeverity n in let! a := keys_of n "related_rules" in let! b := keys_of n "related_unique_ids" in Ok (mk_rattr s a b).
(** RegisterDiscreteValueRuleType 116-127, RegisterRangeValueRuleType 130-142, with
    GetRangeMinMaxValuesFromYamlNode, yaml_conversion.cc 114-121. *)
Definition load_discrete (n : yaml) : outcome rvalue := let! a := attributes n in let! v := get n "value" in omap (Discrete a) (as_string v).
Definition load_range (n : yaml) : outcome rvalue :=
  let! r := get n "range" in match r with
  | Seq [x; y] => let! lo := as_double x in let! hi := as_double y in check! Dleb lo hi in let! a := attributes n in
  let! d := need n "description" in omap (fun d => Range a d lo hi) (as_string d)
  | _ => Throw end.
(** Equality of values: Rule::State::operator== with the maps of empty lists compared
    by size and keys (rule.cc 42-67), and the values. *)
Definition incl_keys (l m : list string) : bool := Nat.eqb (length l) (length m) && forallb (fun k => existsb (String.eqb k) m) l.
Definition rattr_eqb (a b : rattr) : bool := incl_keys (ra_rules a) (ra_rules b) && incl_keys (ra_ids a) (ra_ids b) && Z.eqb (ra_severity a) (ra_severity b).
Definition rvalue_eqb (x y : rvalue) : bool :=
  match x, y with
  | Discrete a v, Discrete b w => rattr_eqb a b && (v =? w)
  | Range a d lo hi, Range b e lo' hi' => rattr_eqb a b && (d =? e) && Deqb lo lo' && Deqb hi hi'
  | _, _ => false
  end.
(** RegisterDiscreteValueRule and RegisterRangeValueRule, api/rules/rule_registry.cc 64-84. *)
Definition registry : Type := list (string * list rvalue).
Definition register (t : string) (vs : list rvalue) (r : registry) : outcome registry :=
  check! negb (mhas String.eqb t r) in check! negb (Nat.eqb (length vs) 0) in
  check! forallb (fun v => Nat.eqb (length (filter (rvalue_eqb v) vs)) 1) vs in Ok (r ++ [(t, vs)])%list.
(** BuildFrom, rule_registry_loader.cc 145-172. *)
Fixpoint load_types (l : list (yaml * yaml)) (r : registry) : outcome registry :=
  match l with
  | [] => Ok r
  | (kn, vn) :: l' => let! t := EvaluateRuleType vn in match t with
      | Unknown => Throw
      | TDiscrete => let! id := as_id kn in let! vs := each_ok load_discrete (elements vn) in obind (register id vs r) (load_types l')
      | TRange => let! id := as_id kn in let! vs := each_ok load_range (elements vn) in obind (register id vs r) (load_types l')
      end
  end.
Definition LoadRuleRegistry (n : yaml) : outcome registry :=
  check! is_map n in let! m := need n "RuleRegistry" in check! is_map m in load_types (pairs m) [].
End Loaders.
