(** What a valid road network is, in terms of the data only. *)
From Coq Require Import List QArith Bool Arith.
From Verif Require Import Base Regions_Model Regions_Spec Rulebook_Model Rulebook_Spec RuleStates_Model RuleStates_Spec Validator_Model.
Import ListNotations.

Section Spec.
Context {pos rot : Type}.
Variables (pdist : pos -> pos -> Q) (rdist : rot -> rot -> Q) (reverse : rot -> rot).
Notation geometry := (@geometry pos rot).
Notation network := (@network pos rot).

Definition keys {V} (m : list (nat * V)) : Prop := NoDup (map fst m).

(** ** Hierarchy (road_network_validator.h 46-60) *)
Definition lane_fine (g : geometry) (seg : nat) (p : option nat) : Prop :=
  exists l, p = Some l /\ l_segment (g_ln g l) = Some seg /\ In (l_id (g_ln g l), l) (ix_lanes g) /\ l_start (g_ln g l) <> None /\ l_finish (g_ln g l) <> None.
Definition segment_fine (g : geometry) (j : nat) (p : option nat) : Prop :=
  exists s, p = Some s /\ s_junction (g_sg g s) = Some j /\ In (s_id (g_sg g s), s) (ix_segments g) /\ s_lanes (g_sg g s) <> [] /\ forall q, In q (s_lanes (g_sg g s)) -> lane_fine g s q.
Definition junction_fine (g : geometry) (p : option nat) : Prop :=
  exists j, p = Some j /\ j_rg (g_jn g j) = Some (g_self g) /\ In (j_id (g_jn g j), j) (ix_junctions g) /\ j_segments (g_jn g j) <> [] /\ forall q, In q (j_segments (g_jn g j)) -> segment_fine g j q.
Definition bp_fine (g : geometry) (p : option nat) : Prop :=
  exists b a s, p = Some b /\ bp_rg (g_bp g b) = Some (g_self g) /\ In (bp_id (g_bp g b), b) (ix_bps g) /\ bp_a (g_bp g b) = Some a /\ bp_b (g_bp g b) = Some s /\ ~ (a = [] /\ s = []).
Definition hierarchy_fine (g : geometry) : Prop :=
  g_junctions g <> [] /\ (forall p, In p (g_junctions g) -> junction_fine g p) /\ (2 <= List.length (g_bps g))%nat /\ (forall p, In p (g_bps g) -> bp_fine g p).

(** ** Invariants *)
(** Every pointer CheckInvariants() follows is there. *)
Definition no_null (g : geometry) : Prop :=
  (forall p, In p (g_bps g) -> exists b, p = Some b /\ bp_rg (g_bp g b) <> None /\ bp_a (g_bp g b) <> None /\ bp_b (g_bp g b) <> None) /\
  (forall p, In p (g_junctions g) -> exists j, p = Some j /\ j_rg (g_jn g j) <> None /\
    forall q, In q (j_segments (g_jn g j)) -> exists s, q = Some s /\ s_junction (g_sg g s) <> None /\
    forall r, In r (s_lanes (g_sg g s)) -> exists l, r = Some l /\ l_segment (g_ln g l) <> None).
(** Every object has its owner, lanes are in order. *)
Definition owners_fine (g : geometry) : Prop :=
  (forall b, In (Some b) (g_bps g) -> bp_rg (g_bp g b) = Some (g_self g)) /\
  (forall j, In (Some j) (g_junctions g) -> j_rg (g_jn g j) = Some (g_self g) /\
    forall s, In (Some s) (j_segments (g_jn g j)) -> s_junction (g_sg g s) = Some j /\
    forall i l, nth_error (s_lanes (g_sg g s)) i = Some (Some l) -> l_segment (g_ln g l) = Some s /\ l_index (g_ln g l) = i).
(** Where a lane ends, and the orientation there on the way out of the lane. *)
Definition place (g : geometry) (e : nat * bool) : pos := l_pos (g_ln g (fst e)) (if snd e then 0 else l_length (g_ln g (fst e))).
Definition heading_out (g : geometry) (e : nat * bool) : rot :=
  if snd e then reverse (l_rot (g_ln g (fst e)) 0) else l_rot (g_ln g (fst e)) (l_length (g_ln g (fst e))).
(** The ends at a branch point meet: all places near the first one's, all headings out near the
    first one's or its reverse. *)
Definition ends_meet (g : geometry) (a b : list (nat * bool)) : Prop :=
  exists ref heading,
    (forall e, In e (a ++ b) -> pdist (place g ref) (place g e) <= g_linear g) /\
    (forall e, In e a -> rdist heading (heading_out g e) <= g_angular g) /\
    (forall e, In e b -> rdist (reverse heading) (heading_out g e) <= g_angular g) /\
    ((exists a', a = ref :: a' /\ heading = heading_out g ref) \/ (a = [] /\ exists b', b = ref :: b' /\ heading = reverse (heading_out g ref))).
Definition invariants_fine (g : geometry) : Prop :=
  owners_fine g /\ forall p a b, In (Some p) (g_bps g) -> bp_a (g_bp g p) = Some a -> bp_b (g_bp g p) = Some b -> ends_meet g a b.

(** ** Rules *)
Definition follows (g : geometry) (a b : lsrange) : Prop :=
  exists la lb, In (lane_id a, la) (ix_lanes g) /\ In (lane_id b, lb) (ix_lanes g) /\
    pdist (l_pos (g_ln g la) (Regions_Model.s1 (s_range a))) (l_pos (g_ln g lb) (Regions_Model.s0 (s_range b))) < g_linear g /\
    rdist (l_rot (g_ln g la) (Regions_Model.s1 (s_range a))) (l_rot (g_ln g lb) (Regions_Model.s0 (s_range b))) < g_angular g.
Definition contiguous (g : geometry) (z : list lsrange) : Prop := forall l1 a b l2, z = l1 ++ a :: b :: l2 -> follows g a b.
Definition zones_fine (n : network) : Prop := forall k id r, k = DiscreteValue \/ k = RangeValue -> In (id, r) (rules (n_book n) k) -> contiguous (n_geometry n) (r_zone r).
Definition coverage_fine (n : network) : Prop :=
  forall id l, In (id, l) (ix_lanes (n_geometry n)) -> exists rid r z x, In (rid, r) (rules (n_book n) DirectionUsage) /\ In z (r_zone r) /\ lane_id z = id /\
    In_range x (s_range z) /\ 0 <= x <= l_length (g_ln (n_geometry n) l).
(** The documented condition: the rules cover every lane. *)
Definition covered (n : network) : Prop :=
  forall id l x, In (id, l) (ix_lanes (n_geometry n)) -> 0 <= x <= l_length (g_ln (n_geometry n) l) ->
    exists rid r z, In (rid, r) (rules (n_book n) DirectionUsage) /\ In z (r_zone r) /\ lane_id z = id /\ In_range x (s_range z).
Definition bulb_groups_fine (n : network) : Prop :=
  forall id r t gs gid, In (id, r) (rules (n_book n) RightOfWay) -> In (t, gs) (n_groups n (r_data r)) -> In gid gs ->
    exists light group, In (t, light) (n_lights n) /\ In (gid, group) light.
Definition a_phase (n : network) (p : vphase) : Prop := exists id ps, In id (n_ring_ids n) /\ n_ring n id = Some ps /\ In p ps.
Definition rings_there (n : network) : Prop := forall id, In id (n_ring_ids n) -> n_ring n id <> None.
(** [v] is one of the states of the rule, up to related rules and ids that only [v] lists. *)
Definition allows (states : list dvalue) (v : dvalue) : Prop := exists s, In s states /\ dv_value s = dv_value v /\ sub_state (dv_state s) (dv_state v).
Definition phase_rules_fine (n : network) : Prop :=
  rings_there n /\ forall p id v, a_phase n p -> In (id, v) (vp_rules p) -> exists r, In (id, r) (rules (n_book n) DiscreteValue) /\ allows (n_discrete n (r_data r)) v.
Definition phase_bulbs_fine (n : network) : Prop :=
  rings_there n /\ forall p bs t gr b s, a_phase n p -> vp_bulbs p = Some bs -> In (t, gr, b, s) bs ->
    exists light group states, In (t, light) (n_lights n) /\ In (gr, group) light /\ In (b, states) group /\ In s states.
Definition rule_exists (n : network) (id : nat) : Prop := exists k r, (k = DiscreteValue \/ k = RangeValue) /\ In (id, r) (rules (n_book n) k).
Definition related_fine (n : network) : Prop :=
  (forall id r v k ids x, In (id, r) (rules (n_book n) DiscreteValue) -> In v (n_discrete n (r_data r)) -> In (k, ids) (related_rules (dv_state v)) -> In x ids -> rule_exists n x) /\
  (forall id r v k ids x, In (id, r) (rules (n_book n) RangeValue) -> In v (n_range n (r_data r)) -> In (k, ids) (related_rules (rv_state v)) -> In x ids -> rule_exists n x).

(** Maps have one value per key, lanes a length that is not negative. *)
Record tables (n : network) : Prop := {
  t_lanes : keys (ix_lanes (n_geometry n)); t_segments : keys (ix_segments (n_geometry n)); t_junctions : keys (ix_junctions (n_geometry n)); t_bps : keys (ix_bps (n_geometry n));
  t_lights : keys (n_lights n); t_groups : forall t l, In (t, l) (n_lights n) -> keys l; t_bulbs : forall t l gr b, In (t, l) (n_lights n) -> In (gr, b) l -> keys b;
  t_lengths : forall id l, In (id, l) (ix_lanes (n_geometry n)) -> 0 <= l_length (g_ln (n_geometry n) l);
  t_values : forall k v, In v (n_discrete n k) -> map_state (dv_state v);
  t_phase_values : forall p id v, a_phase n p -> In (id, v) (vp_rules p) -> map_state (dv_state v) }.
End Spec.
