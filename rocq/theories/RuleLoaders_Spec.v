(** What documents of rules, of phase rings over right of way rules and of intersections mean,
    independently of the loaders. *)
From Coq Require Import String List ZArith.
From Verif Require Import Base Maps Loaders_Model Loaders_Spec RuleLoaders_Model.
Import ListNotations.
Local Open Scope string_scope.

(** ** Related rules and ids *)
(** From mentions (group, id), in the order of the document, to groups: each group that is
    mentioned, in the order of its first mention, with its ids in order. *)
Definition grouped (ms : list (string * string)) : groups :=
  map (fun k => (k, map snd (filter (fun m => fst m =? k) ms))) (rev (nodup string_dec (rev (map fst ms)))).
(** Groups a rule accepts. *)
Definition good_groups (g : groups) : Prop := forall k ids, In (k, ids) g -> k <> "" /\ NoDup ids.
(** As many groups, and all the ids of one are in the other. *)
Definition within (a b : groups) : Prop :=
  length a = length b /\ forall k ids, In (k, ids) a -> exists ids', In (k, ids') b /\ incl ids ids'.
(** Values that a rule cannot have both. *)
Definition alike (v w : dval) : Prop :=
  dv_value v = dv_value w /\ within (dv_rules v) (dv_rules w) /\ within (dv_ids v) (dv_ids w) /\ dv_severity v = dv_severity w.
Definition good_values (vs : list dval) : Prop :=
  vs <> [] /\ Forall (fun v => good_groups (dv_rules v) /\ good_groups (dv_ids v) /\ (0 <= dv_severity v)%Z) vs /\
  ForallOrdPairs (fun v w => ~ alike v w /\ ~ alike w v) vs.
(** A node without items to iterate over. *)
Definition no_items (n : yaml) : Prop := (forall l, n <> Seq l) /\ forall p l, n <> Map (p :: l).

(** A list of nodes has only nodes of a shape ([true]), or has a first one that is not and can
    be looked into ([false]). *)
Definition looked_into (n : yaml) : Prop := a_map n \/ n = Null \/ exists l, n = Seq l.
Definition probed (shape : yaml -> Prop) (l : list yaml) (b : bool) : Prop :=
  if b then Forall shape l else exists l1 x l2, l = (l1 ++ x :: l2)%list /\ Forall shape l1 /\ ~ shape x /\ looked_into x.
(** The values (the ranges) of a rule node are of the shape. *)
Definition tells (n : yaml) (key : string) (shape : yaml -> Prop) (b : bool) : Prop :=
  (absent n key /\ b = false) \/
  (exists v, entry n key v /\ no_items v /\ b = true) \/
  (exists l, entry n key (Seq l) /\ probed shape l b).
(** The nodes of values have no repeated keys. *)
Definition tidy_rule (n : yaml) : Prop := forall k l e, (k = "values" \/ k = "ranges") -> entry n k (Seq l) -> In e l -> tidy_map e.

Section RuleMeaning.
Context {D : Type} (to_double : string -> option D) (to_int : string -> option Z) (null_text : option string) (Dleb : D -> D -> bool) (zero : D).
Context (lane_length : string -> option D).
Notation text := (text null_text).
Notation ident := (ident null_text).
Notation text_at := (text_at null_text).
Notation ident_at := (ident_at null_text).
Notation number := (number to_double).
Notation lane_range := (lane_range (D := D)).
Notation rval := (rval (D := D)).
Notation drule := (drule (D := D)).
Notation rrule := (rrule (D := D)).
Notation rowrule := (rowrule (D := D)).
Notation dirrule := (dirrule (D := D)).
Notation rulebook := (rulebook (D := D)).
Notation rule_types := (rule_types (D := D)).

(** ** Zones *)
Definition denotes_range (klane krange : string) (n : yaml) (r : lane_range) : Prop :=
  ident_at n klane (lr_lane r) /\
  exists len, lane_length (lr_lane r) = Some len /\
    ((absent n krange /\ lr_s0 r = zero /\ lr_s1 r = len /\ Dleb zero len = true) \/
     (exists a b, entry n krange (Seq [a; b]) /\ number a (lr_s0 r) /\ number b (lr_s1 r) /\
        Dleb zero (lr_s0 r) = true /\ Dleb zero (lr_s1 r) = true /\ Dleb (lr_s1 r) len = true)).
Definition denotes_zone (klane krange : string) (n : yaml) (k : string) (z : list lane_range) : Prop :=
  exists l, entry n k (Seq l) /\ Forall2 (denotes_range klane krange) l z.

(** ** Rules of registered types *)
(** What a pair, and an item, of a list of related things mentions. *)
Inductive pair_mentions : yaml * yaml -> list (string * string) -> Prop :=
| pm_ids : forall kn l k ids, (l <> [] -> text kn k) -> Forall2 ident l ids -> pair_mentions (kn, Seq l) (map (pair k) ids)
| pm_none : forall kn vn, no_items vn -> pair_mentions (kn, vn) [].
Inductive item_mentions : yaml -> list (string * string) -> Prop :=
| im_map : forall l mss, Forall2 pair_mentions l mss -> item_mentions (Map l) (concat mss)
| im_other : forall n, ~ a_map n -> item_mentions n [].
Definition related_at (n : yaml) (k : string) (g : groups) : Prop :=
  exists l mss, entry n k (Seq l) /\ Forall2 item_mentions l mss /\ g = grouped (concat mss).
Definition denotes_dval (n : yaml) (v : dval) : Prop :=
  severity_at to_int n (dv_severity v) /\ related_at n "related_rules" (dv_rules v) /\ related_at n "related_unique_ids" (dv_ids v) /\ text_at n "value" (dv_value v).
Definition denotes_rval (n : yaml) (v : rval) : Prop :=
  severity_at to_int n (rv_severity v) /\ related_at n "related_rules" (rv_rules v) /\ related_at n "related_unique_ids" (rv_ids v) /\ text_at n "description" (rv_desc v) /\
  exists x y, entry n "range" (Seq [x; y]) /\ number x (rv_min v) /\ number y (rv_max v) /\ Dleb (rv_min v) (rv_max v) = true.
Definition ralike (v w : rval) : Prop :=
  rv_desc v = rv_desc w /\ rv_min v = rv_min w /\ rv_max v = rv_max w /\ within (rv_rules v) (rv_rules w) /\ within (rv_ids v) (rv_ids w) /\ rv_severity v = rv_severity w.
Definition good_ranges (vs : list rval) : Prop :=
  vs <> [] /\ Forall (fun v => good_groups (rv_rules v) /\ good_groups (rv_ids v) /\ (0 <= rv_severity v)%Z /\ Dleb (rv_min v) (rv_max v) = true) vs /\
  ForallOrdPairs (fun v w => ~ ralike v w /\ ~ ralike w v) vs.
Definition denotes_drule (reg : rule_types) (n : yaml) (r : drule) : Prop :=
  ident_at n "id" (dr_id r) /\ ident_at n "type" (dr_type r) /\ denotes_zone "lane_id" "s_range" n "zone" (dr_zone r) /\
  (exists l, entry n "values" (Seq l) /\ Forall2 denotes_dval l (dr_values r)) /\ good_values (dr_values r) /\
  exists known, In (dr_type r, known) (ty_discrete reg) /\ forall v, In v (dr_values r) -> In (dv_severity v, dv_value v) known.
Definition denotes_rrule (reg : rule_types) (n : yaml) (r : rrule) : Prop :=
  ident_at n "id" (rr_id r) /\ ident_at n "type" (rr_type r) /\ denotes_zone "lane_id" "s_range" n "zone" (rr_zone r) /\
  (exists l, entry n "ranges" (Seq l) /\ Forall2 denotes_rval l (rr_ranges r)) /\ good_ranges (rr_ranges r) /\
  exists known, In (rr_type r, known) (ty_range reg) /\ forall v, In v (rr_ranges r) -> In (rv_severity v, rv_desc v, rv_min v, rv_max v) known.
(** A rule node is for a range value rule if its ranges are of that shape, whatever its values;
    else for a discrete value rule if its values are. *)
Definition denotes_rule (reg : rule_types) (n : yaml) (r : drule + rrule) : Prop :=
  match r with
  | inl d => tells n "values" discrete_shape true /\ tells n "ranges" range_shape false /\ denotes_drule reg n d
  | inr r => (exists b, tells n "values" discrete_shape b) /\ tells n "ranges" range_shape true /\ denotes_rrule reg n r
  end.
Definition rule_id (r : drule + rrule) : string := match r with inl d => dr_id d | inr r => rr_id r end.
Definition discretes (rs : list (drule + rrule)) : list (string * drule) := flat_map (fun r => match r with inl d => [(dr_id d, d)] | inr _ => [] end) rs.
Definition ranges (rs : list (drule + rrule)) : list (string * rrule) := flat_map (fun r => match r with inl _ => [] | inr r => [(rr_id r, r)] end) rs.
Definition denotes_rulebook (reg : rule_types) (n : yaml) (b : rulebook) : Prop :=
  exists l rs, entry n "RoadRulebook" (Seq l) /\ Forall2 (denotes_rule reg) l rs /\ NoDup (map rule_id rs) /\
    bk_rows b = [] /\ bk_dirs b = [] /\ bk_discrete b = discretes rs /\ bk_range b = ranges rs.
Definition tidy_rulebook (n : yaml) : Prop := forall l e, entry n "RoadRulebook" (Seq l) -> In e l -> tidy_rule e.

(** ** Right of way and direction usage rules *)
Definition state_names : list string := ["Go"; "Stop"; "StopThenGo"].
Definition name_of (t : rowtype) : string := match t with Go => "Go" | Stop => "Stop" | StopThenGo => "StopThenGo" end.
(** The state of a type, if the map has it: the rules to yield to. *)
Definition state_of_type (m : yaml) (t : rowtype) (s : list (string * (rowtype * list string))) : Prop :=
  (absent m (name_of t) /\ s = []) \/
  exists l y, entry m (name_of t) (Seq l) /\ Forall2 ident l y /\ s = [(name_of t, (t, y))].
Definition denotes_states (m : yaml) (ss : list (string * (rowtype * list string))) : Prop :=
  only_keys m state_names /\
  exists s1 s2 s3, state_of_type m Go s1 /\ state_of_type m Stop s2 /\ state_of_type m StopThenGo s3 /\ ss = (s1 ++ s2 ++ s3)%list.
Definition zonetype_at (n : yaml) (t : zonetype) : Prop :=
  (absent n "ZoneType" /\ t = StopExcluded) \/ text_at n "ZoneType" (match t with StopExcluded => "StopExcluded" | StopAllowed => "StopAllowed" end).
Definition bulb_groups_at (n : yaml) (gs : groups) : Prop :=
  (absent n "RelatedBulbGroups" /\ gs = []) \/
  exists l, entry n "RelatedBulbGroups" (Map l) /\ NoDup (map fst gs) /\
    Forall2 (fun p g => ident (fst p) (fst g) /\ ((exists il, snd p = Seq il /\ Forall2 ident il (snd g)) \/ (no_items (snd p) /\ snd g = []))) l gs.
(** The bulb groups as they are written in unique ids. *)
Definition unique_names (gs : groups) : list string := flat_map (fun g => map (fun b => fst g ++ "-" ++ b) (snd g)) gs.
Definition denotes_rowrule (n : yaml) (r : rowrule) : Prop :=
  ident_at n "ID" (rw_id r) /\ (exists m, entry n "States" m /\ denotes_states m (rw_states r)) /\ rw_states r <> [] /\
  denotes_zone "Lane" "SRange" n "Zone" (rw_zone r) /\ zonetype_at n (rw_zonetype r) /\ bulb_groups_at n (rw_groups r) /\
  Forall (fun g => NoDup (snd g)) (rw_groups r).
(** What the derived rule demands in addition. *)
Definition derivable (r : rowrule) : Prop := Forall (fun s => NoDup (snd (snd s))) (rw_states r) /\ NoDup (unique_names (rw_groups r)).
(** The rule that says whether to stop in the zone, and the one with the states. *)
Definition derives_stop (r : rowrule) (d : drule) : Prop :=
  dr_id d = "Vehicle-Stop-In-Zone-Behavior Rule Type/" ++ rw_id r /\ dr_type d = "Vehicle-Stop-In-Zone-Behavior Rule Type" /\ dr_zone d = rw_zone r /\
  exists v, dr_values d = [v] /\ dv_severity v = 0%Z /\ dv_rules v = [] /\ dv_ids v = [] /\
    dv_value v = match rw_zonetype r with StopExcluded => "DoNotStop" | StopAllowed => "UnconstrainedParking" end.
Definition derives_value (r : rowrule) (s : string * (rowtype * list string)) (v : dval) : Prop :=
  dv_value v = name_of (fst (snd s)) /\ dv_severity v = 0%Z /\
  dv_rules v = [("Vehicle-Stop-In-Zone-Behavior Rule Type", ["Vehicle-Stop-In-Zone-Behavior Rule Type/" ++ rw_id r]);
                ("Yield Group", map (fun y => "Right-Of-Way Rule Type/" ++ y) (snd (snd s)))] /\
  dv_ids v = [("Bulb Group", unique_names (rw_groups r))].
Definition derives_row (r : rowrule) (d : drule) : Prop :=
  dr_id d = "Right-Of-Way Rule Type/" ++ rw_id r /\ dr_type d = "Right-Of-Way Rule Type" /\ dr_zone d = rw_zone r /\
  Forall2 (derives_value r) (rw_states r) (dr_values d).
Definition dirtype_called (t : dirtype) (s : string) : Prop :=
  match t with WithS => s = "WithS" | AgainstS => s = "AgainstS" | Bidirectional => s = "Bidirectional" | BidirectionalTurnOnly => s = "BidirectionalTurnOnly"
             | NoUse => s = "NoUse" | Parking => s = "Parking" | DUndefined => False end.
Definition denotes_dirstate (e : yaml) (s : string * (dirtype * dirseverity)) : Prop :=
  ident_at e "ID" (fst s) /\ (exists t, text_at e "Type" t /\ dirtype_called (fst (snd s)) t) /\
  text_at e "Severity" (match snd (snd s) with SStrict => "Strict" | SPreferred => "Preferred" end).
Definition denotes_dirrule (n : yaml) (r : dirrule) : Prop :=
  ident_at n "ID" (du_id r) /\ (exists l, entry n "States" (Seq l) /\ Forall2 denotes_dirstate l (du_states r)) /\ du_states r <> [] /\ NoDup (map fst (du_states r)) /\
  exists z, entry n "Zone" z /\ denotes_range "Lane" "SRange" z (du_zone r).
Definition denotes_old_rulebook (n : yaml) (b : rulebook) : Prop :=
  exists bn rl dl rows dirs ds, entry n "RoadRulebook" bn /\ entry bn "RightOfWayRules" (Seq rl) /\ entry bn "DirectionUsageRules" (Seq dl) /\
    Forall2 denotes_rowrule rl rows /\ Forall derivable rows /\ NoDup (map rw_id rows) /\
    Forall2 denotes_dirrule dl dirs /\ NoDup (map du_id dirs) /\
    Forall2 (fun r sd => derives_stop r (fst sd) /\ derives_row r (snd sd)) rows ds /\
    bk_rows b = map (fun r => (rw_id r, r)) rows /\ bk_dirs b = map (fun r => (du_id r, r)) dirs /\
    bk_discrete b = flat_map (fun sd => [(dr_id (fst sd), fst sd); (dr_id (snd sd), snd sd)]) ds /\ bk_range b = [].
Definition tidy_old_rulebook (n : yaml) : Prop :=
  forall bn l e m, entry n "RoadRulebook" bn -> entry bn "RightOfWayRules" (Seq l) -> In e l -> entry e "States" m -> tidy_map m.

(** ** Phase rings over right of way rules *)
(** A rulebook where right of way rules have their derived rules. *)
Definition paired (b : rulebook) : Prop :=
  NoDup (map fst (bk_rows b)) /\ NoDup (map fst (bk_discrete b)) /\
  forall id r, In (id, r) (bk_rows b) -> rw_id r = id /\ rw_states r <> [] /\ NoDup (map fst (rw_states r)) /\
    exists d, In ("Right-Of-Way Rule Type/" ++ id, d) (bk_discrete b) /\ derives_row r d.
(** The ring is about the rule [r] called [id]. *)
Definition row_listed (b : rulebook) (n : yaml) (id : string) (r : rowrule) : Prop :=
  exists l e, entry n "Rules" (Seq l) /\ In e l /\ text e id /\ In (id, r) (bk_rows b).
(** The first state of a type; the default: of type Stop, if there is none StopThenGo, else Go. *)
Definition first_of (r : rowrule) (t : rowtype) (s : string) : Prop :=
  exists l1 y l2, rw_states r = (l1 ++ (s, (t, y)) :: l2)%list /\ forall x, In x l1 -> fst (snd x) <> t.
Definition default_of (r : rowrule) (s : string) : Prop :=
  first_of r Stop s \/
  (first_of r StopThenGo s /\ forall x, In x (rw_states r) -> fst (snd x) <> Stop) \/
  (first_of r Go s /\ forall x, In x (rw_states r) -> fst (snd x) = Go).
Definition old_phase_ok (b : rulebook) (n pn : yaml) : Prop :=
  exists sl, entry pn "RightOfWayRuleStates" (Map sl) /\
    (forall p, In p sl -> exists id s r, ident (fst p) id /\ ident (snd p) s /\ row_listed b n id r) /\
    forall id s r, row_listed b n id r -> last_written null_text sl id s -> exists x, In (s, x) (rw_states r).
Definition old_ring_ok (b : rulebook) (lights : list (traffic_light (D := D))) (n : yaml) : Prop :=
  (exists id, ident_at n "ID" id) /\
  (exists l, entry n "Rules" (Seq l) /\ forall e, In e l -> exists id r, ident e id /\ In (id, r) (bk_rows b)) /\
  exists pl ids, entry n "Phases" (Seq pl) /\ Forall2 (phase_id null_text) pl ids /\ Forall (old_phase_ok b n) pl /\ Forall (bulb_states_ok null_text lights) pl /\
    (absent n "PhaseTransitionGraph" \/ exists gn, entry n "PhaseTransitionGraph" gn /\ graph_ok to_double null_text ids gn).

(** What a phase of the ring is: the state of every rule of the ring as the phase writes it, else
    the default; for each, the derived rule with the value of the state; the bulbs. *)
Definition denotes_old_phase (b : rulebook) (lights : list (traffic_light (D := D))) (n pn : yaml) (p : old_phase) : Prop :=
  phase_id null_text pn (op_id p) /\
  NoDup (map fst (op_rows p)) /\
  (forall id s, In (id, s) (op_rows p) <-> exists r, row_listed b n id r /\ (phase_writes null_text pn id s \/ (phase_omits null_text pn id /\ default_of r s))) /\
  Forall2 (fun st v => fst v = "Right-Of-Way Rule Type/" ++ fst st /\ exists r x, In (fst st, r) (bk_rows b) /\ In (snd st, x) (rw_states r) /\ derives_value r (snd st, x) (snd v)) (op_rows p) (op_values p) /\
  bulbs_of_phase null_text lights pn (op_bulbs p).

(** ** Intersections *)
Notation pring := (pring (D := D)).
Notation pprovider := (pprovider (D := D)).
Notation intersection := (intersection (D := D)).
(** The first phase a ring goes to after [ph], with its duration. *)
Definition first_next (ring : pring) (ph : string) (o : option (string * option D)) : Prop :=
  exists ns, In (ph, ns) (pr_next ring) /\ o = hd_error ns.
(** Zones of rules, one after the other. *)
Definition zones (b : rulebook) (ids : list string) (z : list lane_range) : Prop :=
  exists ds, Forall2 (fun id d => In (id, d) (bk_discrete b)) ids ds /\ z = flat_map dr_zone ds.
Definition row_zones (b : rulebook) (ids : list string) (z : list lane_range) : Prop :=
  exists rs, Forall2 (fun id r => In (id, r) (bk_rows b)) ids rs /\ z = flat_map rw_zone rs.
(** The region of a ring: of the rules of its first phase. *)
Definition region_of (b : rulebook) (ring : pring) (z : list lane_range) : Prop :=
  exists ph ds rs l, pr_phases ring = (ph, (ds, rs)) :: l /\
    ((zones b ds z /\ z <> []) \/ (zones b ds [] /\ row_zones b rs z)).
Definition denotes_intersection (b : rulebook) (rings : list (string * pring)) (n : yaml) (i : intersection) : Prop :=
  ident_at n "ID" (in_id i) /\ ident_at n "PhaseRing" (in_ring i) /\
  exists ring ph, In (in_ring i, ring) rings /\ ident_at n "InitialPhase" ph /\ In ph (map fst (pr_phases ring)) /\ region_of b ring (in_region i).
(** The last intersection of the document at a ring: its initial phase. *)
Definition last_initial (l : list yaml) (rid ph : string) : Prop :=
  exists l1 n l2, l = (l1 ++ n :: l2)%list /\ ident_at n "PhaseRing" rid /\ ident_at n "InitialPhase" ph /\ forall e, In e l2 -> ~ ident_at e "PhaseRing" rid.
(** Rings that can exist: every phase has an entry for its next phases. *)
Definition good_rings (rings : list (string * pring)) : Prop :=
  NoDup (map fst rings) /\ forall rid r, In (rid, r) rings -> NoDup (map fst (pr_phases r)) /\ NoDup (map fst (pr_next r)) /\ map fst (pr_next r) = map fst (pr_phases r).
Definition good_rulebook (b : rulebook) : Prop := NoDup (map fst (bk_rows b)) /\ NoDup (map fst (bk_discrete b)).
(** What the provider says of a ring after the document [l]. *)
Definition provided (rings : list (string * pring)) (l : list yaml) (m m' : pprovider) : Prop :=
  NoDup (map fst m') /\
  forall rid x, In (rid, x) m' <->
    (exists ring, In (rid, ring) rings /\ last_initial l rid (fst x) /\ first_next ring (fst x) (snd x)) \/
    (In (rid, x) m /\ forall e, In e l -> ~ ident_at e "PhaseRing" rid).
End RuleMeaning.
