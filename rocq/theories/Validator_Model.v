(** Model of src/maliput/api/road_network_validator.cc, RoadGeometry::CheckInvariants
    (src/maliput/api/road_geometry.cc 97-211) and IsContiguous (src/maliput/api/regions.cc 49-66).
    Simplifications: pointers are natural numbers and [None] is nullptr; inertial positions and
    rotations with their distances are parameters; identifiers are natural numbers; the
    rulebook is a ManualRulebook (Rulebook_Model) whose rule payloads are looked up in tables. *)
From Coq Require Import List QArith Bool Arith.
From Verif Require Import Base Maps Regions_Model Rulebook_Model RuleStates_Model.
Import ListNotations.

(** Evaluates [f] on every element, stopping at the first throw. *)
Fixpoint each {A} (f : A -> outcome unit) (l : list A) : outcome unit :=
  match l with [] => Ok tt | x :: l' => obind (f x) (fun _ => each f l') end.
(** MALIPUT_THROW_UNLESS as a statement. *)
Definition require (c : bool) : outcome unit := throw_unless c (Ok tt).
Definition is_ptr (p : option nat) (q : nat) : bool := match p with Some x => Nat.eqb x q | None => false end.
(** Dereference of a possibly null pointer. *)
Definition deref {A} (p : option nat) (f : nat -> outcome A) : outcome A := match p with Some x => f x | None => UB end.

Section Geometry.
Context {pos rot : Type}.
(** InertialPosition::Distance, Rotation::Distance and Rotation::Reverse, lane_data.cc 59-93. *)
Variables (pdist : pos -> pos -> Q) (rdist : rot -> rot -> Q) (reverse : rot -> rot).

(** The API of Lane, Segment, Junction and BranchPoint the checks use.  [l_pos s] and [l_rot s]
    are ToInertialPosition and GetOrientation at (s, 0, 0).  The ends of a side are
    (lane, is start). *)
Record lane_obj := mk_lane { l_id : nat; l_segment : option nat; l_index : nat; l_start : option nat; l_finish : option nat; l_length : Q; l_pos : Q -> pos; l_rot : Q -> rot }.
Record segment_obj := mk_segment { s_id : nat; s_junction : option nat; s_lanes : list (option nat) }.
Record junction_obj := mk_junction { j_id : nat; j_rg : option nat; j_segments : list (option nat) }.
Record bp_obj := mk_bp { bp_id : nat; bp_rg : option nat; bp_a : option (list (nat * bool)); bp_b : option (list (nat * bool)) }.
(** RoadGeometry: its own address, junction(i), branch_point(i), the objects, the maps of
    IdIndex and the tolerances. *)
Record geometry := mk_geometry {
  g_self : nat; g_junctions : list (option nat); g_bps : list (option nat);
  g_jn : nat -> junction_obj; g_sg : nat -> segment_obj; g_ln : nat -> lane_obj; g_bp : nat -> bp_obj;
  ix_junctions : list (nat * nat); ix_segments : list (nat * nat); ix_lanes : list (nat * nat); ix_bps : list (nat * nat);
  g_linear : Q; g_angular : Q }.

Section Checks.
Variable g : geometry.

(** ** IsContiguous, regions.cc 49-66 *)
Definition get_lane (id : nat) : option nat := mfind Nat.eqb id (ix_lanes g).
Definition is_contiguous (a b : lsrange) : outcome bool :=
  match get_lane (lane_id a) with None => Throw | Some la =>
  match get_lane (lane_id b) with None => Throw | Some lb =>
  let ra := Regions_Model.s1 (s_range a) in let rb := Regions_Model.s0 (s_range b) in
  Ok (Qltb (pdist (l_pos (g_ln g la) ra) (l_pos (g_ln g lb) rb)) (g_linear g) && Qltb (rdist (l_rot (g_ln g la) ra) (l_rot (g_ln g lb) rb)) (g_angular g)) end end.

(** ** CheckInvariants, road_geometry.cc 97-211 *)
Inductive failure := FBpOwner | FJunctionOwner | FSegmentOwner | FLaneOwner | FLaneIndex | FEmptyBp | FPosition | FOrientation.
(** A loop that collects failures. *)
Fixpoint collect {A} (f : A -> outcome (list failure)) (l : list A) : outcome (list failure) :=
  match l with [] => Ok [] | x :: l' => obind (f x) (fun a => omap (app a) (collect f l')) end.
(** A wrong owner is reported by its id: a null owner is dereferenced. *)
Definition owner_failure (owner : option nat) (expected : nat) (k : failure) : outcome (list failure) :=
  match owner with None => UB | Some o => Ok (if Nat.eqb o expected then [] else [k]) end.
(** 102-110 *)
Definition bp_owner (p : option nat) : outcome (list failure) := deref p (fun b => owner_failure (bp_rg (g_bp g b)) (g_self g) FBpOwner).
(** 128-146 *)
Definition lane_failures (seg : nat) (il : nat * option nat) : outcome (list failure) :=
  deref (snd il) (fun l => omap (fun a => a ++ (if Nat.eqb (l_index (g_ln g l)) (fst il) then [] else [FLaneIndex])) (owner_failure (l_segment (g_ln g l)) seg FLaneOwner)).
Fixpoint numbered {A} (i : nat) (l : list A) : list (nat * A) := match l with [] => [] | x :: l' => (i, x) :: numbered (S i) l' end.
(** 120-148 *)
Definition segment_failures (j : nat) (p : option nat) : outcome (list failure) :=
  deref p (fun s => obind (owner_failure (s_junction (g_sg g s)) j FSegmentOwner) (fun a =>
    omap (app a) (collect (lane_failures s) (numbered 0 (s_lanes (g_sg g s)))))).
(** 111-149 *)
Definition junction_failures (p : option nat) : outcome (list failure) :=
  deref p (fun j => obind (owner_failure (j_rg (g_jn g j)) (g_self g) FJunctionOwner) (fun a =>
    omap (app a) (collect (segment_failures j) (j_segments (g_jn g j))))).
(** LaneEndInertialPosition and OrientationOutFromLane, 52-69. *)
Definition end_s (e : nat * bool) : Q := if snd e then 0 else l_length (g_ln g (fst e)).
Definition end_pos (e : nat * bool) : pos := l_pos (g_ln g (fst e)) (end_s e).
Definition end_out (e : nat * bool) : rot := let r := l_rot (g_ln g (fst e)) (end_s e) in if snd e then reverse r else r.
(** 152-203 *)
Definition bp_failures (p : option nat) : outcome (list failure) :=
  deref p (fun b =>
  match bp_a (g_bp g b), bp_b (g_bp g b) with
  | Some a, Some b' =>
    match a ++ b' with
    | [] => Ok [FEmptyBp]
    | ref :: _ =>
      let far := fun e => if Qltb (g_linear g) (pdist (end_pos ref) (end_pos e)) then [FPosition] else [] in
      let ref_rot := match a with [] => reverse (end_out ref) | _ => end_out ref end in
      let turned := fun reference e => if Qltb (g_angular g) (rdist reference (end_out e)) then [FOrientation] else [] in
      Ok (flat_map far a ++ flat_map far b' ++ flat_map (turned ref_rot) a ++ flat_map (turned (reverse ref_rot)) b')
    end
  | _, _ => UB
  end).
Definition check_invariants : outcome (list failure) :=
  obind (collect bp_owner (g_bps g)) (fun f1 => obind (collect junction_failures (g_junctions g)) (fun f2 =>
  omap (fun f3 => f1 ++ f2 ++ f3) (collect bp_failures (g_bps g)))).

(** ** The validator *)
(** ThrowIfThereAreRoadGeometryInvariants, road_network_validator.cc 96-99. *)
Definition throw_if_invariants : outcome unit := obind check_invariants (fun f => require (match f with [] => true | _ => false end)).
(** CheckRoadGeometryHierarchyConsistency, 104-145. *)
Definition nonempty {A} (l : list A) : bool := match l with [] => false | _ => true end.
Definition check_lane (seg : nat) (p : option nat) : outcome unit :=
  match p with None => Throw | Some l =>
  let o := g_ln g l in
  throw_unless (is_ptr (l_segment o) seg) (throw_unless (is_ptr (get_lane (l_id o)) l) (
  throw_unless (match l_start o with Some _ => true | None => false end) (
  throw_unless (match l_finish o with Some _ => true | None => false end) (Ok tt)))) end.
Definition check_segment (j : nat) (p : option nat) : outcome unit :=
  match p with None => Throw | Some s =>
  let o := g_sg g s in
  throw_unless (is_ptr (s_junction o) j) (throw_unless (is_ptr (mfind Nat.eqb (s_id o) (ix_segments g)) s) (
  throw_unless (nonempty (s_lanes o)) (each (check_lane s) (s_lanes o)))) end.
Definition check_junction (p : option nat) : outcome unit :=
  match p with None => Throw | Some j =>
  let o := g_jn g j in
  throw_unless (is_ptr (j_rg o) (g_self g)) (throw_unless (is_ptr (mfind Nat.eqb (j_id o) (ix_junctions g)) j) (
  throw_unless (nonempty (j_segments o)) (each (check_segment j) (j_segments o)))) end.
Definition check_bp (p : option nat) : outcome unit :=
  match p with None => Throw | Some b =>
  let o := g_bp g b in
  throw_unless (is_ptr (bp_rg o) (g_self g)) (throw_unless (is_ptr (mfind Nat.eqb (bp_id o) (ix_bps g)) b) (
  match bp_a o, bp_b o with
  | Some a, Some b' => require (nonempty a || nonempty b')
  | _, _ => Throw
  end)) end.
Definition check_hierarchy : outcome unit :=
  throw_unless (nonempty (g_junctions g)) (
  obind (each check_junction (g_junctions g)) (fun _ =>
  throw_unless (Nat.leb 2 (List.length (g_bps g))) (each check_bp (g_bps g)))).
(** CheckLaneSRouteContiguity, 50-65. *)
Fixpoint check_zone (z : list lsrange) : outcome unit :=
  match z with
  | a :: (b :: _) as z' => obind (is_contiguous a b) (fun c => throw_unless c (check_zone z'))
  | _ => Ok tt
  end.
End Checks.

(** TrafficLightBook::GetTrafficLight, TrafficLight::GetBulbGroup, BulbGroup::GetBulb; a bulb is its states. *)
Definition lights : Type := list (nat * list (nat * list (nat * list nat))).
(** Phase: discrete_value_rule_states(), bulb_states() by (light, group, bulb). *)
Record vphase := mk_vphase { vp_rules : list (nat * dvalue); vp_bulbs : option (list (nat * nat * nat * nat)) }.
(** The road network; the tables give the states and bulb groups of the rule payloads;
    GetPhaseRings() and GetPhaseRing(). *)
Record network := mk_network {
  n_geometry : geometry; n_book : book;
  n_discrete : nat -> list dvalue; n_range : nat -> list range; n_groups : nat -> list (nat * list nat);
  n_lights : lights; n_ring_ids : list nat; n_ring : nat -> option (list vphase) }.
Section Network.
Variable n : network.
(** CheckContiguityBetweenLanes, 69-79. *)
Definition check_contiguity : outcome unit :=
  let zone := fun ir : nat * rule => check_zone (n_geometry n) (r_zone (snd ir)) in
  obind (each zone (Rules (n_book n) DiscreteValue)) (fun _ => each zone (Rules (n_book n) RangeValue)).
(** CheckDirectionUsageRuleCoverage, 86-93. *)
Definition check_coverage : outcome unit :=
  each (fun il => obind (SRange 0 (l_length (g_ln (n_geometry n) (snd il)))) (fun r =>
    obind (FindRules (n_book n) [mk_lsrange (fst il) r] 0) (fun q => require (nonempty (q DirectionUsage))))) (ix_lanes (n_geometry n)).
(** CheckRelatedBulbGroups, 149-165. *)
Definition check_bulb_groups : outcome unit :=
  each (fun ir : nat * rule => each (fun tg => each (fun gid =>
    match mfind Nat.eqb (fst tg) (n_lights n) with
    | None => Throw
    | Some t => require (mhas Nat.eqb gid t)
    end) (snd tg)) (n_groups n (r_data (snd ir)))) (Rules (n_book n) RightOfWay).
(** WalkPhases, 174-185. *)
Definition walk_phases (f : vphase -> outcome unit) : outcome unit :=
  each (fun id => match n_ring n id with None => Throw | Some ps => each f ps end) (n_ring_ids n).
(** CheckPhaseDiscreteValueRuleStates, 190-201. *)
Definition check_phase_rules : outcome unit :=
  walk_phases (fun p => each (fun iv => obind (GetRule DiscreteValue (fst iv) (n_book n)) (fun r =>
    require (existsb (fun s => dvalue_eqb s (snd iv)) (n_discrete n (r_data r))))) (vp_rules p)).
(** CheckPhasesBulbStates, 205-238. *)
Definition check_phase_bulbs : outcome unit :=
  walk_phases (fun p => match vp_bulbs p with None => Ok tt | Some bs => each (fun k =>
    let '(t, gr, b, s) := k in
    match mfind Nat.eqb t (n_lights n) with None => Throw | Some t' =>
    match mfind Nat.eqb gr t' with None => Throw | Some g' =>
    match mfind Nat.eqb b g' with None => Throw | Some states => require (vmem s states) end end end) bs end).
(** IsRuleIdIn, CheckRelatedRues, 241-285. *)
Definition rule_id_in (id : nat) : bool := mhas Nat.eqb id (Rules (n_book n) DiscreteValue) || mhas Nat.eqb id (Rules (n_book n) RangeValue).
Definition check_related : outcome unit :=
  let related := fun s : rstate => each (fun kv : str * list nat => each (fun id => require (rule_id_in id)) (snd kv)) (related_rules s) in
  obind (each (fun ir : nat * rule => each (fun v => related (dv_state v)) (n_discrete n (r_data (snd ir)))) (Rules (n_book n) DiscreteValue)) (fun _ =>
  each (fun ir : nat * rule => each (fun v => related (rv_state v)) (n_range n (r_data (snd ir)))) (Rules (n_book n) RangeValue)).
End Network.
(** RoadNetworkValidatorOptions, road_network_validator.h 38-77. *)
Record voptions := mk_voptions { o_coverage : bool; o_invariants : bool; o_hierarchy : bool; o_bulb_groups : bool; o_contiguity : bool; o_phase_rules : bool; o_phase_bulbs : bool; o_related : bool }.
Definition all_checks : voptions := mk_voptions true true true true true true true true.
(** ValidateRoadNetwork, 289-314. *)
Definition validate (n : network) (o : voptions) : outcome unit :=
  let run := fun (b : bool) (c : outcome unit) (k : outcome unit) => obind (if b then c else Ok tt) (fun _ => k) in
  run (o_coverage o) (check_coverage n) (
  run (o_invariants o) (throw_if_invariants (n_geometry n)) (
  run (o_hierarchy o) (check_hierarchy (n_geometry n)) (
  run (o_bulb_groups o) (check_bulb_groups n) (
  run (o_contiguity o) (check_contiguity n) (
  run (o_phase_rules o) (check_phase_rules n) (
  run (o_phase_bulbs o) (check_phase_bulbs n) (
  run (o_related o) (check_related n) (Ok tt)))))))).
End Geometry.
