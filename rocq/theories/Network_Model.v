(** Models of RoadNetwork (src/maliput/api/road_network.cc), TrafficLightBook (src/maliput/base/traffic_light_book.cc)
    and of the queries of src/maliput/base/rule_tools.cc.  A null pointer is [None]; ids are natural numbers. *)
From Coq Require Import String Ascii List Bool Arith.
From Verif Require Import Base Maps RuleStates_Model Hierarchy_Model.
Import ListNotations.

(** ** api/road_network.cc *)

(** The components besides the road geometry are told apart by a number. *)
Record network := mk_network {
  n_geometry : Hierarchy_Model.state; n_rulebook : nat; n_lights : nat; n_intersections : nat; n_rings : nat; n_phases : nat;
  n_registry : nat; n_discrete : nat; n_range : nat;
  n_right_of_way : option nat (* right_of_way_rule_state_provider_, road_network.h 131 *) }.
(** MALIPUT_THROW_UNLESS(p.get() != nullptr): maliput_throw.h 70-80. *)
Definition not_null {A B} (p : option A) (k : A -> outcome B) : outcome B := match p with Some x => k x | None => Throw end.
(** RoadNetwork::RoadNetwork with nine arguments: road_network.cc 62-89. *)
Definition RoadNetwork (g : option Hierarchy_Model.state) (rb tl ib pr pp rr dv rv : option nat) : outcome network :=
  not_null g (fun g => not_null rb (fun rb => not_null tl (fun tl => not_null ib (fun ib => not_null pr (fun pr =>
  not_null pp (fun pp => not_null rr (fun rr => not_null dv (fun dv => not_null rv (fun rv =>
  Ok (mk_network g rb tl ib pr pp rr dv rv None)))))))))).
(** RoadNetwork::RoadNetwork with the right of way state provider: road_network.cc 42-58. *)
Definition RoadNetworkDeprecated (g : option Hierarchy_Model.state) (rb tl ib pr row pp rr dv rv : option nat) : outcome network :=
  obind (RoadNetwork g rb tl ib pr pp rr dv rv) (fun n =>
  not_null row (fun row => Ok (mk_network (n_geometry n) (n_rulebook n) (n_lights n) (n_intersections n) (n_rings n) (n_phases n)
    (n_registry n) (n_discrete n) (n_range n) (Some row)))).
(** RoadPosition, lane_data.h 323-337: a lane, by its pointer, and a position on it; [contains] is Lane::Contains of
    each lane.  RoadNetwork::Contains(RoadPosition): road_network.cc 91-93; the network is not looked at. *)
Definition ContainsPosition {Pos} (contains : nat -> Pos -> outcome bool) (n : network) (lane : option nat) (pos : Pos) : outcome bool :=
  match lane with Some l => contains l pos | None => UB end.
(** RoadNetwork::Contains(LaneId): road_network.cc 95-97. *)
Definition ContainsLane (n : network) (lane_id : nat) : bool :=
  match ix_find KLane lane_id (ids (n_geometry n)) with Some _ => true | None => false end.

(** ** base/traffic_light_book.cc *)

(** A traffic light: its id and its pointer.  TrafficLightBook::Impl::book_, traffic_light_book.cc 72; unordered_map
    in the order of additions. *)
Record light := mk_light { l_id : nat; l_pointer : nat }.
Definition light_book : Type := list (nat * nat).
(** AddTrafficLight: 50-57. *)
Definition AddTrafficLight (l : option light) : action light_book := fun b =>
  match l with
  | None => (b, false)
  | Some l => match memplace Nat.eqb (l_id l) (l_pointer l) b with Some b' => (b', true) | None => (b, false) end
  end.
(** DoTrafficLights: 59-64, DoGetTrafficLight: 66-69. *)
Definition TrafficLights (b : light_book) : list nat := map snd b.
Definition GetTrafficLight (b : light_book) (id : nat) : option nat := mfind Nat.eqb id b.

(** ** base/rule_tools.cc *)

(** RelatedRulesKeys::kYieldGroup and RelatedUniqueIdsKeys::kBulbGroup, base/rule_registry.cc 90-92. *)
Definition yield_key : str := map nat_of_ascii (list_ascii_of_string "Yield Group").
Definition bulb_key : str := map nat_of_ascii (list_ascii_of_string "Bulb Group").
(** RightOfWayRuleTypeId() is a parameter. *)
Section Tools.
Variable right_of_way : nat.
(** unordered_map::find of related_rules and related_unique_ids. *)
Definition find_group (k : str) (g : groups) : option (list nat) := mfind str_eqb k g.
(** GetYieldGroup: 55-60, GetBulbGroup: 68-73. *)
Definition GetYieldGroup (v : dvalue) : outcome (list nat) :=
  match find_group yield_key (related_rules (dv_state v)) with Some g => Ok g | None => Throw end.
Definition GetBulbGroup (v : dvalue) : outcome (list nat) :=
  match find_group bulb_key (related_ids (dv_state v)) with Some g => Ok g | None => Throw end.
(** GetCurrentStateValue: 41-51.  The rule is its id and its type; the provider is the manual one. *)
Definition GetCurrentStateValue (id ty : nat) (provider : option (list (nat * @sresult dvalue))) : outcome dvalue :=
  match provider with
  | None => Throw
  | Some m => throw_unless (Nat.eqb ty right_of_way) (match GetState m id with Some r => Ok (s_state r) | None => Throw end)
  end.
(** GetCurrentYieldGroup: 62-66, GetCurrentBulbGroup: 75-79. *)
Definition GetCurrentYieldGroup (id ty : nat) (provider : option (list (nat * @sresult dvalue))) : outcome (list nat) :=
  obind (GetCurrentStateValue id ty provider) GetYieldGroup.
Definition GetCurrentBulbGroup (id ty : nat) (provider : option (list (nat * @sresult dvalue))) : outcome (list nat) :=
  obind (GetCurrentStateValue id ty provider) GetBulbGroup.
End Tools.
