(** C77-C81: the comparison functions of the API. *)
From Coq Require Import List ZArith QArith Qabs Bool Arith Lia Lqa Permutation.
From Coq Require Import Floats.SpecFloat.
From Verif Require Import Base Maps Binary64 RuleStates_Model RuleStates_Spec RuleStates_Proofs
  Compare_Model Compare_Spec Compare_Proofs Compare_Float.
Import ListNotations.
Local Open Scope nat_scope.

(** ** C77: no message exactly when the fields are the same *)
(** The collector: a message exactly when something failed, with the exact numbers. *)
Theorem collector_counts (rs : list cres) :
  exists r, collect (map (@Ok cres) rs) = Ok r /\
  (r = None <-> forall x, In x rs -> x = None) /\
  (forall m, r = Some m -> exists f, m = Summary f (length rs) /\ 0 < f <= length rs /\
     exists good bad, Permutation rs (good ++ bad) /\ length bad = f /\
       (forall x, In x good -> x = None) /\ (forall x, In x bad -> x <> None)).
Proof.
  eexists. split; [apply collect_ok|]. pose proof (fails_zero rs) as Z. rewrite Forall_forall in Z. split.
  - destruct (Nat.ltb_spec 0 (fails rs)); split; intro H1; try discriminate; auto.
    + apply Z in H1. lia.
    + apply Z. lia.
  - destruct (Nat.ltb_spec 0 (fails rs)) as [L|]; [|discriminate]. intros m E. injection E as <-.
    exists (fails rs). split; auto. unfold fails in *.
    assert (length (filter (fun r : option message => match r with Some _ => true | None => false end) rs) <= length rs) as LE.
    { clear. induction rs as [|[] rs IH]; cbn; lia. }
    split; [lia|].
    exists (filter (fun r : option message => match r with Some _ => false | None => true end) rs), (filter (fun r : option message => match r with Some _ => true | None => false end) rs).
    split.
    { clear. induction rs as [|[] rs IH]; cbn; auto. apply Permutation_cons_app, IH. }
    split; auto. split; intros x I; apply filter_In in I as [_ I]; destruct x; congruence.
Qed.
Print Assumptions collector_counts.

Theorem zones_compared a b : qeq_zone a b = Ok None <-> same_zone a b.
Proof. exact (eq_zone_s a b). Qed.
Print Assumptions zones_compared.

Theorem speed_limits_compared a b : qeq_slrule a b = Ok None <-> same_slrule a b.
Proof. exact (eq_slrule_s a b). Qed.
Print Assumptions speed_limits_compared.

Theorem direction_usages_compared a b : is_map (du_states _ a) -> is_map (du_states _ b) ->
  (qeq_durule a b = Ok None <-> same_durule a b).
Proof. exact (eq_durule_s a b). Qed.
Print Assumptions direction_usages_compared.

Theorem right_of_way_results_compared a b : qeq_rwresult a b = Ok None <-> same_rwresult a b.
Proof. exact (eq_rwresult_s a b). Qed.
Print Assumptions right_of_way_results_compared.

Theorem next_phases_compared a b : qeq_nexts a b = Ok None <-> Forall2 same_next a b.
Proof. exact (eq_nexts_s a b). Qed.
Print Assumptions next_phases_compared.

Theorem traffic_lights_compared a b : qeq_light a b = Ok None <-> same_light a b.
Proof. exact (eq_light_s a b). Qed.
Print Assumptions traffic_lights_compared.

(** Range rules: the ranges are compared with Range::operator==, in order. *)
Theorem range_rules_compared a b : Forall proper_range (cr_states _ _ a) -> Forall proper_range (cr_states _ _ b) ->
  (qeq_range_rule a b = Ok None <->
   cr_id _ _ a = cr_id _ _ b /\ cr_type _ _ a = cr_type _ _ b /\ same_zone (cr_zone _ _ a) (cr_zone _ _ b) /\
   Forall2 range_sub (cr_states _ _ a) (cr_states _ _ b)).
Proof.
  intros A B. change (qeq_range_rule a b = Ok None) with (silent (qeq_range_rule a b)). unfold qeq_range_rule, eq_range_rule. coll.
  fold (qeq_zone (cr_zone Q range a) (cr_zone Q range b)). rewrite eq_zone_s, eq_range_vector_s by assumption. tauto.
Qed.
Print Assumptions range_rules_compared.

(** Discrete rules whose values relate to nothing: the values in any order. *)
(** Missing: values with related rules or ids, and repeated values; see the
    refutations. *)
Theorem discrete_rules_compared_partial a b :
  Forall plain (cr_states _ _ a) -> Forall plain (cr_states _ _ b) -> NoDup (cr_states _ _ a) -> NoDup (cr_states _ _ b) ->
  (qeq_discrete_rule a b = Ok None <->
   cr_id _ _ a = cr_id _ _ b /\ cr_type _ _ a = cr_type _ _ b /\ same_zone (cr_zone _ _ a) (cr_zone _ _ b) /\
   Permutation (cr_states _ _ a) (cr_states _ _ b)).
Proof.
  intros A B NA NB. change (qeq_discrete_rule a b = Ok None) with (silent (qeq_discrete_rule a b)). unfold qeq_discrete_rule, eq_discrete_rule. coll.
  fold (qeq_zone (cr_zone Q dvalue a) (cr_zone Q dvalue b)). rewrite eq_zone_s, eq_dvalue_vector_plain by assumption. tauto.
Qed.
Print Assumptions discrete_rules_compared_partial.

(** A right of way rule compares silently with another exactly when they agree, save
    that the bulb groups of the first need only be among those of the second; both
    ways together mean equality. *)
(** Missing: one comparison alone does not settle the bulb groups. *)
Theorem right_of_way_rules_compared_partial a b : rw_maps a -> rw_maps b ->
  (qeq_rwrule a b = Ok None <-> same_rwrule_with (fun u v => forall x, In x u -> In x v) a b) /\
  (qeq_rwrule a b = Ok None /\ qeq_rwrule b a = Ok None <-> same_rwrule a b).
Proof.
  intros A B. split; [exact (eq_rwrule_s a b A B)|].
  rewrite <- sub_both by (apply A || apply B). rewrite <- !eq_rwrule_s by assumption. reflexivity.
Qed.
Print Assumptions right_of_way_rules_compared_partial.

(** Phases: what a silent comparison tells.  Missing: the states of the right of
    way rules and everything of a discrete value except its string. *)
Theorem phases_compared_partial a b : phase_maps a -> phase_maps b ->
  (eq_phase a b = Ok None <-> alike_phase a b) /\ (same_phase a b -> eq_phase a b = Ok None).
Proof.
  intros A B. split; [exact (eq_phase_s a b A B)|]. intros (I & R & V & S). apply eq_phase_s; auto.
  split; auto. split; [|split; auto].
  - eapply same_map_length; eauto; [apply A|apply B].
  - destruct V as [K V]. split; auto. intros k v w X Y. exact (proj1 (V k v w X Y)).
Qed.
Print Assumptions phases_compared_partial.

(** Any two maps of right of way states of the same size compare as equal. *)
Theorem rule_states_compared_refuted :
  (forall a b : list (nat * nat), length a = length b -> eq_rule_states a b = Ok None) /\
  exists a b, phase_maps a /\ phase_maps b /\ eq_phase a b = Ok None /\
    exists k v w, In (k, v) (ph_rules a) /\ In (k, w) (ph_rules b) /\ v <> w.
Proof.
  split.
  - intros a b L. unfold eq_rule_states. apply collect_silent. coll. auto.
  - exists (mk_cphase 1 [(5, 0)] [] None), (mk_cphase 1 [(5, 1)] [] None). unfold phase_maps, is_map. cbn.
    repeat split; auto; try (repeat constructor; cbn; tauto). exists 5, 0, 1. repeat split; auto.
Qed.
Print Assumptions rule_states_compared_refuted.

Definition dv (sev : Z) (s : str) : dvalue := mk_dvalue (mk_rstate sev [] []) s.
(** Severity and relations of discrete values do not count. *)
Theorem discrete_value_compared_refuted :
  (forall a b, dv_value a = dv_value b -> eq_dvalue a b = None) /\
  exists a b, phase_maps a /\ phase_maps b /\ eq_phase a b = Ok None /\ ~ same_phase a b /\
    ph_rules a = ph_rules b /\ ph_bulbs a = ph_bulbs b.
Proof.
  split; [intros a b; apply eq_dvalue_n|].
  exists (mk_cphase 1 [] [(5, dv 0 [7])] None), (mk_cphase 1 [] [(5, dv 1 [7])] None). unfold phase_maps, is_map. cbn.
  repeat split; auto; try (repeat constructor; cbn; tauto).
  intros (_ & _ & [_ V] & _). destruct (V 5 (dv 0 [7]) (dv 1 [7]) (or_introl eq_refl) (or_introl eq_refl)) as [_ [E _]]. discriminate.
Qed.
Print Assumptions discrete_value_compared_refuted.

(** A vector of discrete values with a repetition compares silently with one that
    has another value in its place, but not the other way round. *)
Theorem discrete_values_compared_refuted :
  exists a b, eq_dvalue_vector a b = Ok None /\ eq_dvalue_vector b a <> Ok None /\ ~ Permutation a b.
Proof.
  exists [dv 0 [7]; dv 0 [7]], [dv 0 [7]; dv 0 [8]]. split; [reflexivity|]. split; [vm_compute; discriminate|].
  intro P. assert (In (dv 0 [8]) [dv 0 [7]; dv 0 [7]]) as H by (eapply Permutation_in; [symmetry; exact P|right; left; reflexivity]).
  destruct H as [H|[H|[]]]; discriminate.
Qed.
Print Assumptions discrete_values_compared_refuted.

Definition rw_demo (groups : list (nat * list nat)) : rwrule Q :=
  mk_rwrule Q 1 [mk_lrange Q 4 (mk_rng Q 0%Q 10%Q)] 0 [(2, mk_rwstate 2 0 [9])] groups.
Theorem bulb_groups_compared_refuted :
  exists a b, rw_maps a /\ rw_maps b /\ qeq_rwrule a b = Ok None /\ qeq_rwrule b a <> Ok None /\ ~ same_rwrule a b.
Proof.
  exists (rw_demo [(3, [1])]), (rw_demo [(3, [1; 2])]). unfold rw_maps, indexed, is_map. cbn [rw_demo rw_states rw_groups map fst].
  repeat split; try (repeat constructor; cbn; tauto); try (intros k v [E|[]]; inversion E; reflexivity).
  - vm_compute. discriminate.
  - intros (_ & _ & _ & _ & _ & V). specialize (V 3 [1] [1; 2] (or_introl eq_refl) (or_introl eq_refl) 2). cbn in V. lia.
Qed.
Print Assumptions bulb_groups_compared_refuted.

(** Within one epsilon is not an equivalence: equal to the middle, not to each other. *)
Theorem double_compared_refuted :
  exists x y z, eq_double Q far_q eps_q x y = None /\ eq_double Q far_q eps_q y z = None /\ eq_double Q far_q eps_q x z <> None.
Proof. exists 0%Q, (1 # 4503599627370496)%Q, (2 # 4503599627370496)%Q. repeat split; vm_compute; auto; discriminate. Qed.
Print Assumptions double_compared_refuted.

(** ** C78: comparisons return, whatever the objects, and in either order *)
(** Comparisons of rules, zones, states and results never throw. *)
Theorem comparisons_return :
  (forall a b, returns (qeq_zone a b)) /\ (forall a b, returns (qeq_slrule a b)) /\ (forall a b, returns (qeq_durule a b)) /\
  (forall a b, returns (qeq_rwrule a b)) /\ (forall a b, returns (qeq_rwresult a b)) /\ (forall a b, returns (qeq_range_rule a b)) /\
  (forall a b, returns (qeq_discrete_rule a b)).
Proof.
  assert (R : forall a b, returns (eq_rng Q far_q eps_q a b)) by (intros; unfold eq_rng; collr; auto).
  assert (L : forall a b, returns (qeq_lrange a b)) by (intros; unfold qeq_lrange, eq_lrange; collr; auto).
  assert (Z : forall a b, returns (qeq_zone a b)).
  { intros. unfold qeq_zone, eq_lroute, eq_lranges. collr. split; auto. apply eq_vector_returns. intros x y _ _. apply L. }
  assert (U : forall a b, returns (eq_dustate a b)) by (intros; unfold eq_dustate; collr; auto).
  assert (I : forall a b, returns (eq_ids a b)).
  { intros. apply eq_vector_returns. intros; apply returns_ok; auto. }
  assert (W : forall a b, returns (eq_rwstate a b)) by (intros; unfold eq_rwstate; collr; auto).
  assert (S : forall A (m : list (nat * A)), is_static m = true -> exists v, static_state m = Ok v).
  { intros A m H. apply static_is in H as (k & v & ->). exists v. reflexivity. }
  repeat split.
  - exact Z.
  - intros. unfold qeq_slrule, eq_slrule. collr. repeat split; auto; apply L.
  - intros. unfold qeq_durule, eq_durule. collr. split; [repeat split; auto; try apply L; apply eq_state_map_returns; auto|].
    destruct (is_static (du_states Q a)) eqn:A, (is_static (du_states Q b)) eqn:B; cbn [andb]; try constructor; auto.
    destruct (S _ _ A) as (v & ->), (S _ _ B) as (w & ->). cbn [obind]. auto.
  - intros. unfold qeq_rwrule, eq_rwrule. collr. split; [repeat split; auto; apply Z|]. split; [|split; auto; apply eq_bulb_groups_returns].
    destruct (is_static (rw_states Q a)) eqn:A, (is_static (rw_states Q b)) eqn:B; cbn [andb]; try (constructor; auto; apply eq_state_map_returns; auto).
    destruct (S _ _ A) as (v & ->), (S _ _ B) as (w & ->). cbn [obind]. auto.
  - intros. unfold qeq_rwresult, eq_rwresult. collr. split; auto.
    destruct (wr_next Q a) as [[x d]|], (wr_next Q b) as [[y e]|]; auto. collr. split; auto. destruct d, e; auto. constructor; auto. apply returns_ok; auto.
  - intros. unfold qeq_range_rule, eq_range_rule. collr. repeat split; auto; try apply Z. unfold eq_range_vector. apply eq_vector_returns. intros; apply returns_ok; auto.
  - intros. unfold qeq_discrete_rule, eq_discrete_rule. collr. repeat split; auto; try apply Z. apply eq_dvalue_vector_returns.
Qed.
Print Assumptions comparisons_return.

(** Silence does not depend on the order of the arguments. *)
Theorem comparisons_symmetric :
  (forall a b, qeq_zone a b = Ok None -> qeq_zone b a = Ok None) /\
  (forall a b, qeq_slrule a b = Ok None -> qeq_slrule b a = Ok None) /\
  (forall a b, is_map (du_states _ a) -> is_map (du_states _ b) -> qeq_durule a b = Ok None -> qeq_durule b a = Ok None) /\
  (forall a b, qeq_nexts a b = Ok None -> qeq_nexts b a = Ok None) /\
  (forall a b, qeq_light a b = Ok None -> qeq_light b a = Ok None) /\
  (forall a b, phase_maps a -> phase_maps b -> eq_phase a b = Ok None -> eq_phase b a = Ok None).
Proof.
  assert (N : forall t x y, near t x y -> near t y x) by (intros; unfold near in *; rewrite Qabs_Qminus; assumption).
  assert (L : forall a b, same_lrange a b -> same_lrange b a).
  { intros a b (H1 & H2 & H3). repeat split; auto; apply N; auto. }
  assert (F : forall A (R : A -> A -> Prop) a b, (forall x y, R x y -> R y x) -> Forall2 R a b -> Forall2 R b a).
  { intros A R a b H K. induction K; auto. }
  assert (M : forall A (R : A -> A -> Prop) a b, (forall x y, R x y -> R y x) -> same_map R a b -> same_map R b a).
  { intros A R a b H [K V]. split; [intro k; rewrite K; tauto|]. intros k v w I J. apply H. eauto. }
  assert (O : forall A (R : A -> A -> Prop) a b, (forall x y, R x y -> R y x) -> both R a b -> both R b a).
  { intros A R [x|] [y|] H; cbn; auto. }
  assert (D : forall x y, same_d x y -> same_d y x) by (intros; apply N; auto).
  assert (S3 : forall a b, same3 a b -> same3 b a).
  { intros [[? ?] ?] [[? ?] ?] (? & ? & ?). repeat split; symmetry; auto. }
  assert (S9 : forall a b, same9 a b -> same9 b a).
  { intros [[? ?] ?] [[? ?] ?] (? & ? & ?). repeat split; auto. }
  assert (N3 : forall t a b, near3 t a b -> near3 t b a).
  { intros t [[? ?] ?] [[? ?] ?] (? & ? & ?). repeat split; auto. }
  split; [|split; [|split; [|split; [|split]]]].
  - intros a b H. apply eq_zone_s in H. apply eq_zone_s. unfold same_zone in *. auto.
  - intros a b H. apply eq_slrule_s in H. apply eq_slrule_s. destruct H as (? & ? & ? & ? & ?). split; [|split; [|split; [|split]]]; auto.
  - intros a b A B H. apply eq_durule_s in H; auto. apply eq_durule_s; auto. destruct H as (? & ? & ?). split; [|split]; auto.
    apply M; auto. intros x y (? & ? & ?). repeat split; auto.
  - intros a b H. apply eq_nexts_s in H. apply eq_nexts_s. apply F; auto. intros x y (? & ?). split; auto.
  - intros a b H. apply eq_light_s in H. apply eq_light_s. destruct H as (? & ? & ? & H). split; [|split; [|split]]; auto.
    apply F with (2 := H). intros x y (? & ? & ? & K). split; [|split; [|split]]; auto.
    apply F with (2 := K). intros u v (? & ? & ? & ? & ? & ? & ? & ? & ?). repeat (split; auto).
  - intros a b A B H. apply eq_phase_s in H; auto. apply eq_phase_s; auto. destruct H as (? & ? & ? & ?). split; [|split; [|split]]; auto.
Qed.
Print Assumptions comparisons_symmetric.

(** Every object compares silently with itself. *)
Theorem comparisons_reflexive :
  (forall a, qeq_zone a a = Ok None) /\ (forall a, qeq_slrule a a = Ok None) /\
  (forall a, is_map (du_states _ a) -> qeq_durule a a = Ok None) /\ (forall a, rw_maps a -> qeq_rwrule a a = Ok None) /\
  (forall a, qeq_nexts a a = Ok None) /\ (forall a, qeq_light a a = Ok None) /\ (forall a, phase_maps a -> eq_phase a a = Ok None).
Proof.
  assert (D : forall x, same_d x x).
  { intro x. unfold same_d, near. setoid_replace (x - x)%Q with 0%Q by ring. rewrite Qabs_pos by lra. vm_compute. discriminate. }
  assert (L : forall a, same_lrange a a) by (intro; repeat split; auto).
  assert (F : forall A (R : A -> A -> Prop) a, (forall x, R x x) -> Forall2 R a a).
  { intros A R a H. induction a; auto. }
  assert (M : forall A (R : A -> A -> Prop) a, is_map a -> (forall x, R x x) -> same_map R a a).
  { intros A R a N H. split; [tauto|]. intros k v w I J. apply (mfind_some k v a N) in I. apply (mfind_some k w a N) in J.
    assert (v = w) by congruence. subst; auto. }
  assert (O : forall A (R : A -> A -> Prop) a, (forall x, R x x) -> both R a a) by (intros A R [x|] H; cbn; auto).
  assert (S3 : forall a, same3 a a) by (intros [[? ?] ?]; repeat split; reflexivity).
  assert (S9 : forall a, same9 a a) by (intros [[? ?] ?]; repeat split; auto).
  assert (N3 : forall a, near3 (1 # 4503599627370496) a a) by (intros [[? ?] ?]; repeat split; apply D).
  split; [|split; [|split; [|split; [|split; [|split]]]]].
  - intro a. apply eq_zone_s. apply F; auto.
  - intro a. apply eq_slrule_s. repeat (split; auto); apply L.
  - intros a A. apply eq_durule_s; auto. split; [|split]; auto. apply M; auto. intro; repeat split; auto.
  - intros a A. apply eq_rwrule_s; auto. split; [|split; [|split; [|split]]]; auto.
    + apply F; auto.
    + apply M; [apply A|]. intro; repeat split; auto.
    + apply M; [apply A|]. intros x y; auto.
  - intro a. apply eq_nexts_s. apply F. intro x. split; auto.
  - intro a. apply eq_light_s. repeat (split; auto). apply F. intro x. repeat (split; auto). apply F. intro y. repeat (split; auto).
  - intros a (A1 & A2 & A3). apply eq_phase_s; [repeat split; auto|repeat split; auto|]. split; [|split; [|split]]; auto.
    unfold both. destruct (ph_bulbs a); auto.
Qed.
Print Assumptions comparisons_reflexive.

(** An optional double compared with a missing one throws exactly one way round;
    next phases and bulbs inherit it. *)
Theorem optional_comparison_refuted :
  (forall a b : cnext Q, qeq_next a b = Throw <-> nx_until _ a <> None /\ nx_until _ b = None) /\
  exists a b, qeq_next a b = Throw /\ returns (qeq_next b a).
Proof.
  assert (E : forall a b : cnext Q, qeq_next a b = Throw <-> nx_until _ a <> None /\ nx_until _ b = None).
  { intros a b. unfold qeq_next, eq_next. rewrite collect_throw, <- eq_opt_throws. split.
    - intros (l1 & l2 & X & _). destruct l1 as [|? [|? [|? [|? ?]]]]; cbn in X; try discriminate; congruence.
    - intro T. rewrite T. exists [Ok (eq_id (nx_id Q a) (nx_id Q b)); Ok (eq_bool (has_value (nx_until Q a)) (has_value (nx_until Q b)))], [].
      split; auto. repeat constructor; apply returns_ok; auto. }
  split; [exact E|]. exists (mk_cnext Q 1 (Some 5%Q)), (mk_cnext Q 1 None). split.
  - apply E. cbn. split; congruence.
  - eexists. vm_compute. reflexivity.
Qed.
Print Assumptions optional_comparison_refuted.

(** Phases: a rule of the first that the second lacks makes the comparison throw
    instead of reporting it; bulb states of the first alone are read from nowhere. *)
Theorem phase_comparison_refuted :
  (forall a b, (exists k, In k (map fst (ph_values a)) /\ ~ In k (map fst (ph_values b))) -> eq_phase a b = Throw) /\
  (forall a b, ph_bulbs a <> None -> ph_bulbs b = None -> (forall k, In k (map fst (ph_values a)) -> In k (map fst (ph_values b))) ->
     eq_phase a b = UB) /\
  exists a b, eq_phase a b = Throw /\ returns (eq_phase b a).
Proof.
  split; [|split].
  - intros a b H. apply dvalue_map_throws in H. unfold eq_phase. rewrite H. reflexivity.
  - intros a b A B H. unfold eq_phase, eq_rule_states.
    assert (R : returns (eq_dvalue_map (ph_values a) (ph_values b))).
    { unfold eq_dvalue_map. collr. split; auto. apply Forall_map, Forall_forall. intros [k v] I. cbn [fst snd].
      assert (In k (map fst (ph_values b))) as K by (apply H, in_map_iff; exists (k, v); auto).
      apply mfind_key in K as (w & E). unfold map_at. rewrite E. apply returns_ok; auto. }
    destruct R as (r & ->). destruct (ph_bulbs a) as [m|]; [|congruence]. rewrite B. reflexivity.
  - exists (mk_cphase 1 [] [(5, dv 0 [7])] None), (mk_cphase 1 [] [] None). split; [reflexivity|]. eexists. vm_compute. reflexivity.
Qed.
Print Assumptions phase_comparison_refuted.

(** Lane ends: IsEqual is exact; IsLaneEndEqual is too unless exactly one lane is
    null (a default LaneEnd), when it dereferences the null pointer. *)
Theorem lane_ends_compared a b :
  (eq_lane_end a b = Ok None <-> a = b) /\ returns (eq_lane_end a b) /\
  (IsLaneEndEqual a b = Ok None <-> a = b) /\
  (le_lane a <> None -> le_lane b <> None -> returns (IsLaneEndEqual a b)).
Proof.
  assert (E : a = b <-> le_lane a = le_lane b /\ le_end a = le_end b).
  { destruct a, b; cbn. split; [intro H; inversion H; auto|intros []; congruence]. }
  split; [|split; [|split]].
  - change (eq_lane_end a b = Ok None) with (silent (eq_lane_end a b)). unfold eq_lane_end. coll. rewrite eq_ptr_n. tauto.
  - unfold eq_lane_end. collr. auto.
  - unfold IsLaneEndEqual. pose proof (eq_ptr_n (le_lane a) (le_lane b)) as P. pose proof (eq_bool_n (le_end a) (le_end b)) as B.
    destruct (eq_ptr (le_lane a) (le_lane b)) as [m|].
    + split; [destruct (le_lane a), (le_lane b); discriminate|]. intro H. apply E in H as [H _]. apply P in H. discriminate.
    + rewrite E, <- P, <- B. split; [intro H; injection H; auto|intros [_ ->]; reflexivity].
  - intros A B. unfold IsLaneEndEqual. destruct (eq_ptr (le_lane a) (le_lane b)); [|eexists; reflexivity].
    destruct (le_lane a), (le_lane b); try congruence. eexists; reflexivity.
Qed.
Print Assumptions lane_ends_compared.

Theorem lane_end_null_refuted :
  (exists a b, IsLaneEndEqual a b = UB) /\
  forall a b, (le_lane a = None /\ le_lane b <> None) \/ (le_lane a <> None /\ le_lane b = None) -> IsLaneEndEqual a b = UB.
Proof.
  split; [exists (mk_lane_end None false), (mk_lane_end (Some 3) false); reflexivity|].
  intros [[x|] e] [[y|] f]; cbn; intros [[H1 H2]|[H1 H2]]; try congruence; reflexivity.
Qed.
Print Assumptions lane_end_null_refuted.

(** ** C79: closeness *)
Theorem closeness_exact t :
  (forall a b, qclose3 a b t = None <-> near3 t a b) /\ (forall a b, qclose2 a b t = None <-> near2 t a b) /\
  (forall a b, qlane_result_close a b t = None <-> near_lane_result t a b) /\
  (forall a b, qroad_result_close a b t = None <-> near_road_result t a b) /\
  (forall a b, qphase_result_close a b t = None <-> near_phase_result t a b) /\
  (forall a b, qroute_result_close a b t = None <-> near_route_result t a b).
Proof.
  split; [|split; [|split; [|split; [|split]]]]; intros a b;
    [apply close3_s|apply close2_s|apply lane_result_s|apply road_result_s|apply phase_result_s|apply route_result_s].
Qed.
Print Assumptions closeness_exact.

(** In double precision: the order of the arguments does not matter. *)
Theorem closeness_symmetric_double t :
  (forall a b, close3 double far_d a b t = close3 double far_d b a t) /\
  (forall a b, close2 double far_d a b t = close2 double far_d b a t) /\
  (forall a b, eq_double double far_d eps_d a b = eq_double double far_d eps_d b a).
Proof.
  split; [|split]; intros; unfold close3, close2, eq_double.
  - rewrite (far_d_sym t (c1 _ a)), (far_d_sym t (c2 _ a)), (far_d_sym t (c3 _ a)). reflexivity.
  - rewrite (far_d_sym t (fst a)), (far_d_sym t (snd a)). reflexivity.
  - rewrite (far_d_sym eps_d a). reflexivity.
Qed.
Print Assumptions closeness_symmetric_double.

(** A NaN is close, and equal, to everything. *)
Theorem nan_close_refuted :
  (exists a, forall b t, close3 double far_d a b t = None) /\ (exists a, forall b t, close2 double far_d a b t = None) /\
  (exists a, forall b, eq_double double far_d eps_d a b = None).
Proof.
  split; [exists (fnan, fnan, fnan)|split; [exists (fnan, fnan)|exists fnan]]; intros; unfold close3, close2, eq_double, c1, c2, c3; cbn [fst snd]; rewrite !far_d_nan; reflexivity.
Qed.
Print Assumptions nan_close_refuted.

(** ** C80: CompareVectors and CompareMatrices *)
Theorem compare_vectors_symmetric a b tol t : CompareVectors a b tol t = CompareVectors b a tol t.
Proof.
  unfold CompareVectors. do 2 f_equal. revert b. induction a as [|x a IH]; intros [|y b]; cbn [combine existsb fst snd]; auto.
  rewrite component_sym, IH. reflexivity.
Qed.
Print Assumptions compare_vectors_symmetric.

Theorem compare_vectors_reflexive a tol t : tolerable tol -> CompareVectors a a tol t = None.
Proof.
  intro T. unfold CompareVectors. apply unless_true. apply negb_true_iff.
  induction a as [|x a IH]; cbn [combine existsb fst snd]; auto. rewrite component_refl by assumption. exact IH.
Qed.
Print Assumptions compare_vectors_reflexive.

(** A NaN against a number is always reported, and so is an infinity against
    anything else when the tolerance is absolute and finite. *)
Theorem compare_vectors_special a b i x y tol t :
  nth_error a i = Some x -> nth_error b i = Some y ->
  (is_nan x <> is_nan y -> CompareVectors a b tol t = Some Diff) /\
  (infinite x = true -> is_nan y = false -> y <> x -> finite tol = true -> CompareVectors a b tol kAbsolute = Some Diff).
Proof.
  intros A B.
  assert (C : forall t, component_differs tol t x y = true -> CompareVectors a b tol t = Some Diff).
  { intros t' H. unfold CompareVectors. replace (existsb (fun p => component_differs tol t' (fst p) (snd p)) (combine a b)) with true; [reflexivity|].
    symmetry. apply existsb_exists. exists (x, y). split; auto. revert b i A B. induction a as [|u a' IH]; intros [|v b] [|i]; cbn; try discriminate.
    - intros X Y. left. congruence.
    - intros X Y. right. eauto. }
  split.
  - intro N. apply C, component_nan, N.
  - intros X Y D F. apply C. apply component_absolute_inf; auto.
Qed.
Print Assumptions compare_vectors_special.

(** With a relative tolerance an infinity passes for any number. *)
Theorem compare_relative_refuted :
  (forall tol x y, tolerable tol -> infinite x = true -> is_nan y = false -> CompareVectors [x] [y] tol kRelative = None) /\
  CompareVectors [inf false; fint 1] [inf true; fint 1] (fof 1 (-40)) kRelative = None /\
  CompareVectors [inf false; fint 1] [fint 3; fint 1] fzero kRelative = None.
Proof.
  split; [|split; vm_compute; reflexivity].
  intros tol x y T X Y. unfold CompareVectors. cbn [combine existsb fst snd]. rewrite component_relative_inf by assumption. reflexivity.
Qed.
Print Assumptions compare_relative_refuted.

(** ** C81: CheckIdIndexing *)
(** Silent exactly when the index returns every junction, segment and lane for its id,
    and every branch point too provided there is a junction. *)
Theorem id_indexing_checked_partial g : CheckIdIndexing g = Ok None <->
  indexes (get_junction g) (map jn_node (rd_junctions g)) /\
  indexes (get_segment g) (map sg_node (flat_map jn_segments (rd_junctions g))) /\
  indexes (get_lane g) (flat_map sg_lanes (flat_map jn_segments (rd_junctions g))) /\
  (rd_junctions g <> [] -> indexes (get_bp g) (rd_bps g)).
Proof. exact (check_s g). Qed.
Print Assumptions id_indexing_checked_partial.

(** Without junctions the branch points are not looked at. *)
Theorem id_indexing_refuted :
  exists g, CheckIdIndexing g = Ok None /\ ~ indexes (get_bp g) (rd_bps g).
Proof.
  exists (mk_croad [] [mk_node 1 1] (fun _ => None) (fun _ => None) (fun _ => None) (fun _ => None)). split; [reflexivity|].
  intro H. specialize (H _ (or_introl eq_refl)). discriminate.
Qed.
Print Assumptions id_indexing_refuted.

(** ** Examples *)
Definition demo_road (bp : nat -> option nat) : croad :=
  mk_croad [mk_cjunction (mk_node 10 1) [mk_csegment (mk_node 20 1) [mk_node 30 1; mk_node 31 2]]] [mk_node 40 1]
    (fun i => if Nat.eqb i 1 then Some 10 else None) (fun i => if Nat.eqb i 1 then Some 20 else None)
    (fun i => if Nat.eqb i 1 then Some 30 else if Nat.eqb i 2 then Some 31 else None) bp.
Example id_indexing_example :
  CheckIdIndexing (demo_road (fun _ => Some 40)) = Ok None /\ CheckIdIndexing (demo_road (fun _ => None)) = Ok (Some (Summary 1 5)).
Proof. split; reflexivity. Qed.
Definition demo_bulb (arrow : option Q) : cbulb Q :=
  mk_cbulb Q 1 (0, 0, 1)%Q ((1, 0, 0), (0, 1, 0), (0, 0, 1))%Q 0 1 arrow [0; 1] (0, 0, 0)%Q (1, 1, 1)%Q.
Definition demo_light (arrow : option Q) : clight Q :=
  mk_clight Q 7 (1, 2, 3)%Q ((1, 0, 0), (0, 1, 0), (0, 0, 1))%Q [mk_cgroup Q 2 (0, 0, 0)%Q ((1, 0, 0), (0, 1, 0), (0, 0, 1))%Q [demo_bulb arrow]].
Example traffic_light_example :
  qeq_light (demo_light (Some 1%Q)) (demo_light (Some 1%Q)) = Ok None /\
  qeq_light (demo_light (Some 1%Q)) (demo_light (Some 2%Q)) = Ok (Some (Summary 1 5)) /\
  qeq_light (demo_light (Some 1%Q)) (demo_light None) = Throw /\
  qeq_light (demo_light None) (demo_light (Some 1%Q)) = Ok (Some (Summary 1 5)).
Proof. repeat split; vm_compute; reflexivity. Qed.
Definition demo_du (sev : nat) : durule Q := mk_durule Q 1 (mk_lrange Q 3 (mk_rng Q 0%Q 5%Q)) [(1, mk_dustate 1 0 sev); (2, mk_dustate 2 1 0)].
Example direction_usage_example :
  is_map (du_states _ (demo_du 0)) /\ qeq_durule (demo_du 0) (demo_du 0) = Ok None /\ qeq_durule (demo_du 0) (demo_du 1) = Ok (Some (Summary 1 4)).
Proof. split; [repeat constructor; cbn; lia|]. split; vm_compute; reflexivity. Qed.
Example right_of_way_example :
  rw_maps (rw_demo [(3, [1; 2])]) /\ qeq_rwrule (rw_demo [(3, [1; 2])]) (rw_demo [(3, [2; 1])]) = Ok None.
Proof.
  split; [|vm_compute; reflexivity]. unfold rw_maps, indexed, is_map. cbn.
  repeat split; try (repeat constructor; cbn; tauto). intros k v [E|[]]; inversion E; reflexivity.
Qed.
Example speed_limit_example :
  let r m := mk_slrule Q 1 (mk_lrange Q 3 (mk_rng Q 0%Q 5%Q)) 0 0%Q m in
  qeq_slrule (r 10%Q) (r 10%Q) = Ok None /\ qeq_slrule (r 10%Q) (r 11%Q) = Ok (Some (Summary 1 5)).
Proof. split; vm_compute; reflexivity. Qed.
Example next_phases_example :
  qeq_nexts [mk_cnext Q 1 (Some 5%Q); mk_cnext Q 2 None] [mk_cnext Q 1 (Some 5%Q); mk_cnext Q 2 None] = Ok None /\
  qeq_nexts [mk_cnext Q 1 (Some 5%Q); mk_cnext Q 2 None] [mk_cnext Q 1 (Some 6%Q); mk_cnext Q 3 None] = Ok (Some (Summary 2 3)).
Proof. split; vm_compute; reflexivity. Qed.
Example phase_example :
  let p v := mk_cphase 1 [(1, 2)] [(5, dv 0 [v]); (6, dv 0 [8])] (Some [(1, 0)]) in
  phase_maps (p 7) /\ eq_phase (p 7) (p 7) = Ok None /\ eq_phase (p 7) (p 8) = Ok (Some (Summary 1 4)).
Proof.
  cbv zeta. split; [|split; vm_compute; reflexivity]. unfold phase_maps, is_map. cbn. repeat split; repeat constructor; cbn; lia.
Qed.
Example range_rule_example :
  let r d := mk_crule Q range 1 2 [mk_lrange Q 3 (mk_rng Q 0%Q 5%Q)] [mk_range (mk_rstate 0 [] []) [d] (fint 1) (fint 2)] in
  Forall proper_range (cr_states _ _ (r 4)) /\ qeq_range_rule (r 4) (r 4) = Ok None /\ qeq_range_rule (r 4) (r 5) = Ok (Some (Summary 1 4)).
Proof.
  cbv zeta. split; [|split; vm_compute; reflexivity]. repeat constructor.
Qed.
Example discrete_rule_example :
  let r l := mk_crule Q dvalue 1 2 [mk_lrange Q 3 (mk_rng Q 0%Q 5%Q)] l in
  Forall plain [dv 0 [7]; dv 1 [7]] /\ NoDup [dv 0 [7]; dv 1 [7]] /\
  qeq_discrete_rule (r [dv 0 [7]; dv 1 [7]]) (r [dv 1 [7]; dv 0 [7]]) = Ok None.
Proof.
  cbv zeta. split; [repeat constructor|]. split; [|vm_compute; reflexivity].
  repeat constructor; cbn; try tauto. intros [H|[]]. discriminate.
Qed.
Example closeness_example :
  qclose3 (0, 0, 0)%Q (1 # 2, 0, -(1 # 2))%Q (1 # 2) = None /\ qclose3 (0, 0, 0)%Q (1 # 2, 1, 0)%Q (1 # 2) = Some Diff.
Proof. split; vm_compute; reflexivity. Qed.
Example compare_vectors_example :
  tolerable (fof 1 (-3)) /\ CompareVectors [fint 1; fint 2] [fint 1; fof 17 (-3)] (fof 1 (-3)) kAbsolute = None /\
  CompareVectors [fint 1; fint 2] [fint 1; fof 19 (-3)] (fof 1 (-3)) kAbsolute = Some Diff /\
  CompareVectors [fint 1; fint 16] [fint 1; fint 18] (fof 1 (-3)) kRelative = None.
Proof. repeat split; vm_compute; reflexivity. Qed.
