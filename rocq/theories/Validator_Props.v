(** C61: ValidateRoadNetwork accepts exactly the networks that meet the enabled conditions. *)
From Coq Require Import List QArith Qabs Lqa Lia Bool Arith ZArith.
From Verif Require Import Base Maps Regions_Model Regions_Spec Rulebook_Model Rulebook_Spec Rulebook_Proofs RuleStates_Model RuleStates_Spec Validator_Model Validator_Spec Validator_Proofs.
Import ListNotations.

Section Props.
Context {pos rot : Type}.
Variables (pdist : pos -> pos -> Q) (rdist : rot -> rot -> Q) (reverse : rot -> rot).
Notation geometry := (@geometry pos rot).
Notation network := (@network pos rot).

(** For every network whose rulebook was built by calls that returned, whatever the options:
    validation returns iff every enabled condition holds for every entity, and throws otherwise.
    With the invariants check enabled the pointers it follows must not be null. *)
Theorem validate_ok_iff : forall (n : network) o, tables n -> from_history n -> (o_invariants o = true -> no_null (n_geometry n)) ->
  (validate pdist rdist reverse n o = Ok tt <->
    (o_coverage o = true -> coverage_fine n) /\ (o_invariants o = true -> invariants_fine pdist rdist reverse (n_geometry n)) /\
    (o_hierarchy o = true -> hierarchy_fine (n_geometry n)) /\ (o_bulb_groups o = true -> bulb_groups_fine n) /\
    (o_contiguity o = true -> zones_fine pdist rdist n) /\ (o_phase_rules o = true -> phase_rules_fine n) /\
    (o_phase_bulbs o = true -> phase_bulbs_fine n) /\ (o_related o = true -> related_fine n)) /\
  (validate pdist rdist reverse n o = Ok tt \/ validate pdist rdist reverse n o = Throw).
Proof.
  intros n o T FH NN. destruct (validate_iff pdist rdist reverse n o T FH NN) as (E & D). split; [rewrite E; tauto|]. destruct (validate pdist rdist reverse n o) as [[]| |]; [left|right|congruence]; reflexivity.
Qed.

(** The hierarchy check never meets a null pointer: it returns on a consistent hierarchy and
    throws on any other. *)
Theorem hierarchy_check_iff : forall g : geometry, keys (ix_lanes g) -> keys (ix_segments g) -> keys (ix_junctions g) -> keys (ix_bps g) ->
  (check_hierarchy g = Ok tt <-> hierarchy_fine g) /\ (check_hierarchy g = Ok tt \/ check_hierarchy g = Throw).
Proof.
  intros g K1 K2 K3 K4. split; [apply check_hierarchy_iff; assumption|]. pose proof (check_hierarchy_defined g) as D. destruct (check_hierarchy g) as [[]| |]; [left|right|congruence]; reflexivity.
Qed.

(** What the invariants buy: any two lane ends at a branch point are within twice the linear
    tolerance, and their headings, taken on the same side, within twice the angular one. *)
Theorem branch_point_ends_near : forall (g : geometry) p a b,
  (forall x y, pdist x y == pdist y x) -> (forall x y z, pdist x z <= pdist x y + pdist y z) ->
  (forall x y, rdist x y == rdist y x) -> (forall x y z, rdist x z <= rdist x y + rdist y z) ->
  no_null g -> throw_if_invariants pdist rdist reverse g = Ok tt -> In (Some p) (g_bps g) -> bp_a (g_bp g p) = Some a -> bp_b (g_bp g p) = Some b ->
  (forall e f, In e (a ++ b) -> In f (a ++ b) -> pdist (place g e) (place g f) <= 2 * g_linear g) /\
  (forall e f, (In e a /\ In f a) \/ (In e b /\ In f b) -> rdist (heading_out reverse g e) (heading_out reverse g f) <= 2 * g_angular g).
Proof.
  intros g p a b S1 T1 S2 T2 NN E I EA EB. apply (throw_if_iff pdist rdist reverse g NN) in E. destruct E as (_ & M). destruct (M p a b I EA EB) as (ref & hd & P & A & B & _). split.
  - intros e f Ie If. pose proof (P e Ie). pose proof (P f If). pose proof (T1 (place g e) (place g ref) (place g f)). rewrite (S1 (place g e) (place g ref)) in H1. lra.
  - intros e f [(Ie & If)|(Ie & If)].
    + pose proof (A e Ie). pose proof (A f If). pose proof (T2 (heading_out reverse g e) hd (heading_out reverse g f)). rewrite (S2 (heading_out reverse g e) hd) in H1. lra.
    + pose proof (B e Ie). pose proof (B f If). pose proof (T2 (heading_out reverse g e) (reverse hd) (heading_out reverse g f)). rewrite (S2 (heading_out reverse g e) (reverse hd)) in H1. lra.
Qed.
End Props.
Print Assumptions validate_ok_iff.
Print Assumptions hierarchy_check_iff.
Print Assumptions branch_point_ends_near.

(** A straight road of two lanes on the line: lane 0 from 0 to 10, lane 1 from 10 to 20. *)
Definition dist1 (x y : Q) : Q := Qabs (x - y).
Definition turn (a b : bool) : Q := if Bool.eqb a b then 0 else 3.
Definition road_lane (l : nat) : @lane_obj Q bool := mk_lane l (Some l) 0 (Some l) (Some (S l)) 10 (fun s => 10 * inject_Z (Z.of_nat l) + s) (fun _ => true).
Definition road_bp (b : nat) : bp_obj :=
  match b with 0%nat => mk_bp 0 (Some 7%nat) (Some [(0%nat, true)]) (Some []) | 1%nat => mk_bp 1 (Some 7%nat) (Some [(0%nat, false)]) (Some [(1%nat, true)]) | _ => mk_bp b (Some 7%nat) (Some []) (Some [(1%nat, false)]) end.
Definition road (start : nat -> option nat) : @geometry Q bool :=
  mk_geometry 7 [Some 0%nat] [Some 0%nat; Some 1%nat; Some 2%nat] (fun j => mk_junction j (Some 7%nat) [Some 0%nat; Some 1%nat]) (fun s => mk_segment s (Some 0%nat) [Some s])
    (fun l => let o := road_lane l in mk_lane (l_id o) (l_segment o) (l_index o) (start l) (l_finish o) (l_length o) (l_pos o) (l_rot o)) road_bp
    [(0, 0)]%nat [(0, 0); (1, 1)]%nat [(0, 0); (1, 1)]%nat [(0, 0); (1, 1); (2, 2)]%nat (1 # 100) (1 # 100).
Definition on (l : nat) (a b : Q) : lsrange := mk_lsrange l (mk_srange a b).
Definition plain_state (rel : groups) : rstate := mk_rstate 0 rel [].
(** Rules 0 and 1 give the direction of use, rule 2 is a discrete rule along both lanes related to
    itself, rule 3 a right-of-way rule with a bulb group. *)
Definition road_ops (used : Q) (row : list lsrange) : list op :=
  [Add DirectionUsage (mk_rule 0 [on 0 0 used] 0); Add DirectionUsage (mk_rule 1 [on 1 0 10] 0); Add DiscreteValue (mk_rule 2 [on 0 0 10; on 1 0 10] 0); Add RightOfWay (mk_rule 3 row 0)].
Definition road_network (start : nat -> option nat) (used : Q) (row : list lsrange) (groups_of : list (nat * list nat)) (value : dvalue) : @network Q bool :=
  mk_network (road start) (act_run step (road_ops used row) empty) (fun _ => [mk_dvalue (plain_state [([5%nat], [2%nat])]) [1%nat]]) (fun _ => []) (fun _ => groups_of)
    [(4%nat, [(6%nat, [(8%nat, [0%nat; 1%nat])])])] [0%nat] (fun _ => Some [mk_vphase [(2%nat, value)] (Some [(4, 6, 8, 1)%nat])]).
Definition road_value : dvalue := mk_dvalue (plain_state [([5%nat], [2%nat])]) [1%nat].
Definition good_network := road_network (fun l => Some l) 10 [on 0 0 10; on 1 0 10] [(4%nat, [6%nat])] road_value.

Lemma road_tables : forall start used row gs v, map_state (dv_state v) -> tables (road_network start used row gs v).
Proof.
  intros start used row gs v MS. constructor; unfold keys; cbn.
  - repeat constructor; cbn; intuition discriminate.
  - repeat constructor; cbn; intuition discriminate.
  - repeat constructor; cbn; intuition discriminate.
  - repeat constructor; cbn; intuition discriminate.
  - repeat constructor; cbn; intuition discriminate.
  - intros t l [E|[]]. injection E as <- <-. repeat constructor; cbn; intuition discriminate.
  - intros t l gr b [E|[]] J. injection E as <- <-. destruct J as [E|[]]. injection E as <- <-. repeat constructor; cbn; intuition discriminate.
  - intros id l [E|[E|[]]]; injection E as <- <-; cbn; lra.
  - intros k w [<-|[]]. split; unfold map_groups; cbn; repeat constructor; cbn; intuition discriminate.
  - intros p id w (i & ps & _ & E & J) K. cbn in E. injection E as <-. destruct J as [<-|[]]. cbn in K. destruct K as [E|[]]. injection E as <- <-. exact MS.
Qed.
Lemma road_history : forall start used row gs v, 0 <= used -> (forall z, In z row -> lvalid z) -> all_returned (road_ops used row) empty -> from_history (road_network start used row gs v).
Proof.
  intros start used row gs v U R A. exists (road_ops used row). split; [reflexivity|]. split; [exact A|]. intros o [<-|[<-|[<-|[<-|[]]]]]; cbn; unfold zone_valid; cbn; intros z I; repeat (destruct I as [<-|I]; [unfold lvalid, valid; cbn; lra|]); try destruct I. apply R. exact I.
Qed.
Lemma road_value_map : map_state (dv_state road_value).
Proof. split; unfold map_groups; cbn; repeat constructor; cbn; intuition discriminate. Qed.
Lemma road_no_null : forall start, no_null (road start).
Proof.
  intro start. split; cbn.
  - intros p [<-|[<-|[<-|[]]]]; eexists; (split; [reflexivity|]); cbn; repeat split; discriminate.
  - intros p [<-|[]]. eexists. split; [reflexivity|]. cbn. split; [discriminate|]. intros q [<-|[<-|[]]]; eexists; (split; [reflexivity|]); cbn; (split; [discriminate|]); intros r [<-|[]]; eexists; (split; [reflexivity|]); discriminate.
Qed.
Example validate_ex : tables good_network /\ from_history good_network /\ no_null (n_geometry good_network) /\ validate dist1 turn negb good_network all_checks = Ok tt.
Proof.
  split; [apply road_tables, road_value_map|]. split; [apply road_history; [lra|cbn; intros z [<-|[<-|[]]]; unfold lvalid, valid; cbn; lra|vm_compute; tauto]|]. split; [apply road_no_null|]. vm_compute. reflexivity.
Qed.
(** A light without the bulb group, or a phase with a value the rule does not have: thrown. *)
Example validate_ex_bad : validate dist1 turn negb (road_network (fun l => Some l) 10 [on 0 0 10; on 1 0 10] [(4%nat, [9%nat])] road_value) all_checks = Throw /\
  validate dist1 turn negb (road_network (fun l => Some l) 10 [on 0 0 10; on 1 0 10] [(4%nat, [6%nat])] (mk_dvalue (plain_state []) [2%nat])) all_checks = Throw.
Proof. split; vm_compute; reflexivity. Qed.

(** ** Where the checks fall short of their documentation *)
(** With the default options a null pointer is dereferenced by the invariants check before the
    hierarchy check, which would throw, gets to it. *)
Theorem validate_null_refuted : exists n : @network Q bool, tables n /\ from_history n /\ check_hierarchy (n_geometry n) = Throw /\ validate dist1 turn negb n all_checks = UB.
Proof.
  set (g := n_geometry good_network).
  exists (mk_network (mk_geometry 7 [None] [] (g_jn g) (g_sg g) (g_ln g) (g_bp g) [] [] [] [] 1 1) empty (fun _ => []) (fun _ => []) (fun _ => []) [] [] (fun _ => None)).
  split; [|split; [exists []; split; [reflexivity|]; split; [exact I|intros o []]|split; vm_compute; reflexivity]].
  constructor; unfold keys; cbn; try (intros; contradiction); try (intros p id v (i & ps & [] & _)); constructor.
Qed.
Print Assumptions validate_null_refuted.
(** Coverage: rules that merely touch a lane are enough; the documentation asks that the direction
    usage rules cover the road geometry. *)
Theorem validate_coverage_refuted : exists n : @network Q bool, tables n /\ from_history n /\ no_null (n_geometry n) /\ validate dist1 turn negb n all_checks = Ok tt /\ ~ covered n.
Proof.
  exists (road_network (fun l => Some l) 1 [on 0 0 10; on 1 0 10] [(4%nat, [6%nat])] road_value).
  split; [apply road_tables, road_value_map|]. split; [apply road_history; [lra|cbn; intros z [<-|[<-|[]]]; unfold lvalid, valid; cbn; lra|vm_compute; tauto]|]. split; [apply road_no_null|]. split; [vm_compute; reflexivity|].
  intro C. destruct (C 0%nat 0%nat 5) as (rid & r & z & I & J & L & R); [left; reflexivity|cbn; lra|]. vm_compute in I. destruct I as [E|[E|[]]]; injection E as <- <-; destruct J as [<-|[]]; cbn in L, R; [|discriminate]. unfold In_range in R. cbn in R. lra.
Qed.
Print Assumptions validate_coverage_refuted.
(** Rule zones: only those of discrete and range value rules are checked for contiguity. *)
Theorem validate_zones_refuted : exists (n : @network Q bool) id r, tables n /\ from_history n /\ no_null (n_geometry n) /\ validate dist1 turn negb n all_checks = Ok tt /\
  In (id, r) (rules (n_book n) RightOfWay) /\ ~ contiguous dist1 turn (n_geometry n) (r_zone r).
Proof.
  exists (road_network (fun l => Some l) 10 [on 0 0 1; on 1 5 6] [(4%nat, [6%nat])] road_value), 3%nat, (mk_rule 3 [on 0 0 1; on 1 5 6] 0).
  split; [apply road_tables, road_value_map|]. split; [apply road_history; [lra|cbn; intros z [<-|[<-|[]]]; unfold lvalid, valid; cbn; lra|vm_compute; tauto]|]. split; [apply road_no_null|]. split; [vm_compute; reflexivity|]. split; [left; reflexivity|].
  intro C. destruct (C [] (on 0 0 1) (on 1 5 6) [] eq_refl) as (la & lb & A & B & D & _). cbn in A, B. destruct A as [E|[E|[]]]; try discriminate; injection E as <-. destruct B as [E|[E|[]]]; try discriminate; injection E as <-. vm_compute in D. discriminate.
Qed.
Print Assumptions validate_zones_refuted.
(** Related bulb groups: a traffic light that does not exist is accepted when no group of it is
    listed. *)
Theorem validate_light_refuted : exists (n : @network Q bool) id r t gs, tables n /\ from_history n /\ no_null (n_geometry n) /\ validate dist1 turn negb n all_checks = Ok tt /\
  In (id, r) (rules (n_book n) RightOfWay) /\ In (t, gs) (n_groups n (r_data r)) /\ ~ exists light, In (t, light) (n_lights n).
Proof.
  exists (road_network (fun l => Some l) 10 [on 0 0 10; on 1 0 10] [(99%nat, [])] road_value), 3%nat, (mk_rule 3 [on 0 0 10; on 1 0 10] 0), 99%nat, [].
  split; [apply road_tables, road_value_map|]. split; [apply road_history; [lra|cbn; intros z [<-|[<-|[]]]; unfold lvalid, valid; cbn; lra|vm_compute; tauto]|]. split; [apply road_no_null|]. split; [vm_compute; reflexivity|].
  split; [left; reflexivity|]. split; [left; reflexivity|]. intros (l & [E|[]]). discriminate.
Qed.
Print Assumptions validate_light_refuted.
(** Phases: a state that is none of the rule's states is accepted when it lists more related rules. *)
Theorem validate_phase_state_refuted : exists (n : @network Q bool) p id v r, tables n /\ from_history n /\ no_null (n_geometry n) /\ validate dist1 turn negb n all_checks = Ok tt /\
  a_phase n p /\ In (id, v) (vp_rules p) /\ In (id, r) (rules (n_book n) DiscreteValue) /\ ~ In v (n_discrete n (r_data r)) /\ exists k ids x, In (k, ids) (related_rules (dv_state v)) /\ In x ids /\ ~ rule_exists n x.
Proof.
  set (v := mk_dvalue (plain_state [([5%nat], [2%nat; 77%nat])]) [1%nat]).
  exists (road_network (fun l => Some l) 10 [on 0 0 10; on 1 0 10] [(4%nat, [6%nat])] v), (mk_vphase [(2%nat, v)] (Some [(4, 6, 8, 1)%nat])), 2%nat, v, (mk_rule 2 [on 0 0 10; on 1 0 10] 0).
  split; [apply road_tables; split; unfold map_groups; cbn; repeat constructor; cbn; intuition discriminate|]. split; [apply road_history; [lra|cbn; intros z [<-|[<-|[]]]; unfold lvalid, valid; cbn; lra|vm_compute; tauto]|]. split; [apply road_no_null|]. split; [vm_compute; reflexivity|].
  split; [exists 0%nat; eexists; split; [left; reflexivity|]; split; [reflexivity|left; reflexivity]|]. split; [left; reflexivity|]. split; [left; reflexivity|]. split; [intros [E|[]]; discriminate|].
  exists [5%nat], [2%nat; 77%nat], 77%nat. split; [left; reflexivity|]. split; [right; left; reflexivity|]. intros (k & r & [->| ->] & J); vm_compute in J; repeat (destruct J as [E|J]; [discriminate|]); exact J.
Qed.
Print Assumptions validate_phase_state_refuted.
(** Lane ends: the branch point a lane is attached to need not belong to the road geometry. *)
Theorem validate_branch_point_refuted : exists (n : @network Q bool) id l b, tables n /\ from_history n /\ no_null (n_geometry n) /\ validate dist1 turn negb n all_checks = Ok tt /\
  In (id, l) (ix_lanes (n_geometry n)) /\ l_start (g_ln (n_geometry n) l) = Some b /\ ~ In (Some b) (g_bps (n_geometry n)).
Proof.
  exists (road_network (fun l => Some 99%nat) 10 [on 0 0 10; on 1 0 10] [(4%nat, [6%nat])] road_value), 0%nat, 0%nat, 99%nat.
  split; [apply road_tables, road_value_map|]. split; [apply road_history; [lra|cbn; intros z [<-|[<-|[]]]; unfold lvalid, valid; cbn; lra|vm_compute; tauto]|]. split; [apply road_no_null|]. split; [vm_compute; reflexivity|].
  split; [left; reflexivity|]. split; [reflexivity|]. cbn. intuition discriminate.
Qed.
Print Assumptions validate_branch_point_refuted.
