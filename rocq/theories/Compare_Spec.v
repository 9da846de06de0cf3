(** Specification vocabulary for the comparison functions: what it means for two
    objects to have the same observable fields, written with equality, order and list
    membership only. *)
From Coq Require Import List ZArith QArith Qabs Bool Arith.
From Verif Require Import Base Binary64 RuleStates_Model RuleStates_Spec Compare_Model.
Import ListNotations.

(** Within a tolerance. *)
Definition near (t a b : Q) : Prop := (Qabs (a - b) <= t)%Q.
(** Doubles that IsEqual takes for the same: at most one machine epsilon apart. *)
Definition same_d (a b : Q) : Prop := near (1 # 4503599627370496) a b.

Definition near3 (t : Q) (a b : Q * Q * Q) : Prop :=
  let '(x, y, z) := a in let '(u, v, w) := b in near t x u /\ near t y v /\ near t z w.
Definition near2 (t : Q) (a b : Q * Q) : Prop := near t (fst a) (fst b) /\ near t (snd a) (snd b).
Definition same3 (a b : Q * Q * Q) : Prop :=
  let '(x, y, z) := a in let '(u, v, w) := b in (x == u /\ y == v /\ z == w)%Q.
Definition same9 (a b : (Q * Q * Q) * (Q * Q * Q) * (Q * Q * Q)) : Prop :=
  let '(x, y, z) := a in let '(u, v, w) := b in same3 x u /\ same3 y v /\ same3 z w.

Definition both {A} (R : A -> A -> Prop) (a b : option A) : Prop :=
  match a, b with None, None => True | Some x, Some y => R x y | _, _ => False end.
(** Maps: the same keys, related values. *)
Definition same_map {A} (R : A -> A -> Prop) (a b : list (nat * A)) : Prop :=
  (forall k, In k (map fst a) <-> In k (map fst b)) /\ (forall k v w, In (k, v) a -> In (k, w) b -> R v w).
Definition is_map {A} (m : list (nat * A)) : Prop := NoDup (map fst m).

Definition same_rng (a b : rng Q) : Prop := same_d (r_s0 _ a) (r_s0 _ b) /\ same_d (r_s1 _ a) (r_s1 _ b).
Definition same_lrange (a b : lrange Q) : Prop := l_lane _ a = l_lane _ b /\ same_rng (l_rng _ a) (l_rng _ b).
Definition same_zone (a b : list (lrange Q)) : Prop := Forall2 same_lrange a b.

Definition near_lane_result (t : Q) (a b : lane_result Q) : Prop :=
  near3 t (lr_pos _ a) (lr_pos _ b) /\ near3 t (lr_nearest _ a) (lr_nearest _ b) /\ near t (lr_dist _ a) (lr_dist _ b).
Definition near_road_result (t : Q) (a b : road_result Q) : Prop :=
  (exists l, rr_lane _ a = Some l /\ rr_lane _ b = Some l) /\ near_lane_result t (rr_result _ a) (rr_result _ b).
Definition near_phase_result (t : Q) (a b : phase_result Q) : Prop :=
  pr_index _ a = pr_index _ b /\ near3 t (pr_pos _ a) (pr_pos _ b) /\ near3 t (pr_inertial _ a) (pr_inertial _ b) /\
  near t (pr_dist _ a) (pr_dist _ b).
Definition near_route_result (t : Q) (a b : route_result Q) : Prop :=
  ro_phase _ a = ro_phase _ b /\ near_phase_result t (ro_result _ a) (ro_result _ b).

(** Discrete values and phases, in full. *)
Definition same_dvalue (a b : dvalue) : Prop := dv_value a = dv_value b /\ same_state (dv_state a) (dv_state b).
Definition same_phase (a b : cphase) : Prop :=
  ph_id a = ph_id b /\ same_map eq (ph_rules a) (ph_rules b) /\ same_map same_dvalue (ph_values a) (ph_values b) /\
  both (same_map eq) (ph_bulbs a) (ph_bulbs b).
Definition phase_maps (p : cphase) : Prop :=
  is_map (ph_rules p) /\ is_map (ph_values p) /\ match ph_bulbs p with Some m => is_map m | None => True end.
(** What IsEqual looks at in a phase. *)
Definition alike_phase (a b : cphase) : Prop :=
  ph_id a = ph_id b /\ length (ph_rules a) = length (ph_rules b) /\
  same_map (fun v w => dv_value v = dv_value w) (ph_values a) (ph_values b) /\
  both (same_map eq) (ph_bulbs a) (ph_bulbs b).

Definition same_next (a b : cnext Q) : Prop := nx_id _ a = nx_id _ b /\ both same_d (nx_until _ a) (nx_until _ b).

Definition same_dustate (a b : dustate) : Prop := us_id a = us_id b /\ us_type a = us_type b /\ us_severity a = us_severity b.
Definition same_durule (a b : durule Q) : Prop :=
  du_id _ a = du_id _ b /\ same_lrange (du_zone _ a) (du_zone _ b) /\ same_map same_dustate (du_states _ a) (du_states _ b).
Definition same_rwstate (a b : rwstate) : Prop := ws_id a = ws_id b /\ ws_type a = ws_type b /\ ws_yield a = ws_yield b.
(** The ids related to a traffic light are a set. *)
Definition same_ids (a b : list nat) : Prop := forall x, In x a <-> In x b.
Definition same_rwrule_with (R : list nat -> list nat -> Prop) (a b : rwrule Q) : Prop :=
  rw_id _ a = rw_id _ b /\ same_zone (rw_zone _ a) (rw_zone _ b) /\ rw_ztype _ a = rw_ztype _ b /\
  same_map same_rwstate (rw_states _ a) (rw_states _ b) /\ same_map R (rw_groups _ a) (rw_groups _ b).
Definition same_rwrule : rwrule Q -> rwrule Q -> Prop := same_rwrule_with same_ids.
(** States are indexed by their own ids (the constructors see to it). *)
Definition indexed {A} (id : A -> nat) (m : list (nat * A)) : Prop := is_map m /\ forall k v, In (k, v) m -> id v = k.

Definition same_rwresult (a b : rwresult Q) : Prop :=
  wr_state _ a = wr_state _ b /\ both (fun x y => fst x = fst y /\ both same_d (snd x) (snd y)) (wr_next _ a) (wr_next _ b).
Definition same_slrule (a b : slrule Q) : Prop :=
  sl_id _ a = sl_id _ b /\ same_lrange (sl_zone _ a) (sl_zone _ b) /\ sl_severity _ a = sl_severity _ b /\
  same_d (sl_min _ a) (sl_min _ b) /\ same_d (sl_max _ a) (sl_max _ b).

Definition same_bulb (a b : cbulb Q) : Prop :=
  cb_id _ a = cb_id _ b /\ same3 (cb_pos _ a) (cb_pos _ b) /\ same9 (cb_rot _ a) (cb_rot _ b) /\ cb_color _ a = cb_color _ b /\
  cb_type _ a = cb_type _ b /\ both same_d (cb_arrow _ a) (cb_arrow _ b) /\ cb_states _ a = cb_states _ b /\
  near3 (1 # 4503599627370496) (cb_min _ a) (cb_min _ b) /\ near3 (1 # 4503599627370496) (cb_max _ a) (cb_max _ b).
Definition same_group (a b : cgroup Q) : Prop :=
  cg_id _ a = cg_id _ b /\ same3 (cg_pos _ a) (cg_pos _ b) /\ same9 (cg_rot _ a) (cg_rot _ b) /\ Forall2 same_bulb (cg_bulbs _ a) (cg_bulbs _ b).
Definition same_light (a b : clight Q) : Prop :=
  ct_id _ a = ct_id _ b /\ same3 (ct_pos _ a) (ct_pos _ b) /\ same9 (ct_rot _ a) (ct_rot _ b) /\ Forall2 same_group (ct_groups _ a) (ct_groups _ b).

(** An index finds every object under its id. *)
Definition indexes (get : nat -> option nat) (l : list node) : Prop := forall n, In n l -> get (n_id n) = Some (n_ptr n).

(** The functions on rationals. *)
Definition qclose3 := close3 Q far_q.
Definition qclose2 := close2 Q far_q.
Definition qlane_result_close := lane_result_close Q far_q.
Definition qroad_result_close := road_result_close Q far_q.
Definition qphase_result_close := phase_result_close Q far_q.
Definition qroute_result_close := route_result_close Q far_q.
Definition qeq_zone := eq_lroute Q far_q eps_q.
Definition qeq_lrange := eq_lrange Q far_q eps_q.
Definition qeq_nexts := eq_nexts Q far_q eps_q.
Definition qeq_next := eq_next Q far_q eps_q.
Definition qeq_durule := eq_durule Q far_q eps_q.
Definition qeq_rwrule := eq_rwrule Q far_q eps_q.
Definition qeq_rwresult := eq_rwresult Q far_q eps_q.
Definition qeq_slrule := eq_slrule Q far_q eps_q.
Definition qeq_range_rule := eq_range_rule Q far_q eps_q.
Definition qeq_discrete_rule := eq_discrete_rule Q far_q eps_q.
Definition qeq_bulb := eq_bulb Q far_q Qeq_bool eps_q.
Definition qeq_group := eq_group Q far_q Qeq_bool eps_q.
Definition qeq_light := eq_light Q far_q Qeq_bool eps_q.
