(** C43: routing constraints. *)
From Coq Require Import List ListDec Permutation Arith Bool QArith Qabs Lia Lqa.
From Verif Require Import Base Maps Regions_Model Scalar_Model Graph_Model Graph_Spec Graph_Proofs Graph_Props Route_Model Route_Spec Route_Proofs Router_Model Router_Spec Router_Proofs.
Import ListNotations.
Local Open Scope nat_scope.

(** Constraints are accepted exactly when both limits are non-negative and the limit of
    the route is not below the limit of a phase. *)
Theorem constraints_accepted_iff c :
  (ValidateRoutingConstraints c = Ok tt <-> limits_consistent c) /\ (~ limits_consistent c -> ValidateRoutingConstraints c = Throw).
Proof.
  destruct (validate_constraints c) as [(E & A)|(E & A)]; rewrite E; unfold limits_consistent; (split; [split|]); auto; try discriminate; tauto.
Qed.
Print Assumptions constraints_accepted_iff.
Example constraints_accepted_example :
  limits_consistent (mk_constraints false (Some 3%Q) (Some 10%Q)) /\ ~ limits_consistent (mk_constraints true (Some 3%Q) (Some 2%Q)).
Proof.
  split.
  - split; [|split]; cbn; intros; repeat match goal with H : Some _ = Some _ |- _ => inversion H; clear H; subst end; lra.
  - intros (_ & _ & H). specialize (H 3%Q 2%Q eq_refl eq_refl). lra.
Qed.

(** Queries that must throw do. *)
Theorem compute_routes_throws m rt start goal c :
  len (net m) (at_lane start) = None \/ len (net m) (at_lane goal) = None \/ ~ limits_consistent c -> ComputeRoutes m rt start goal c = Throw.
Proof.
  unfold ComputeRoutes, known. intros H. destruct (len (net m) (at_lane start)); cbn [throw_unless]; auto. destruct (len (net m) (at_lane goal)); cbn [throw_unless]; auto.
  destruct H as [H|[H|H]]; try discriminate. rewrite (proj2 (constraints_accepted_iff c) H). reflexivity.
Qed.
Print Assumptions compute_routes_throws.

(** Every route that is returned leads from the start to the goal, is connected end to
    end and respects the limits; one phase per segment, each with all lanes of its
    segment, the first on the segment of the start and the last on that of the goal. *)
Theorem compute_routes_sound m rt start goal c l r : lengths_ok m -> ComputeRoutes m rt start goal c = Ok l -> In r l ->
  within_limits c r /\ Connected (net m) r = Ok true /\
  (exists p, hd_error r = Some p /\ ph_starts p = [start]) /\ (forall p, In p r -> last r p = p -> ph_ends p = [goal]) /\
  exists segs, Forall2 (fun s p => map lane_id (ph_ranges p) = lanes_of m s /\ forall x, In x (ph_starts p) \/ In x (ph_ends p) -> seg_of m (at_lane x) = s) segs r /\
    hd_error segs = Some (seg_of m (at_lane start)) /\ last segs 0 = seg_of m (at_lane goal).
Proof.
  intros Lo E I. destruct (compute_split m rt start goal c l E) as (seqs & rs & Un & V & F & Va).
  destruct (filter_sublist_of c rs l F) as (_ & K & _).
  pose proof (filter_sublist_of c rs l F) as (Sl & _ & _).
  assert (Ir : In r rs) by (eapply sublist_incl; eauto).
  destruct (unfiltered_from m rt start goal seqs rs r Un Ir) as (es & Ies & Mk & Nr).
  pose proof (make_phases_measurable m _ _ _ _ _ _ _ Lo Mk) as Me.
  destruct (make_phases_ok m _ _ _ _ _ _ _ Mk) as [Le H].
  assert (Lc : limits_consistent c) by (apply constraints_accepted_iff; auto).
  split; [|split; [|split; [|split]]].
  - apply (limits_spec c r Me); [apply Lc|]. specialize (K r I). unfold keep_route in K.
    destruct (at_most (max_phase c) _); cbn [negb] in K; [|discriminate]. destruct (at_most (max_route c) _); cbn [negb] in K; [|discriminate]. auto.
  - eapply validate_routes_ok; eauto.
  - destruct r as [|p r]; [congruence|]. destruct es as [|e es]; [discriminate Le|]. exists p. split; auto. destruct (H 0 e p eq_refl eq_refl) as (_ & A & _). auto.
  - intros p Ip Lp. destruct (@exists_last _ r Nr) as (r' & z & ->). rewrite last_last in Lp. subst z.
    rewrite app_length in Le. cbn in Le. assert (X : exists e, nth_error es (length r') = Some e).
    { destruct (nth_error es (length r')) eqn:X; eauto. apply nth_error_None in X. lia. }
    destruct X as [e X]. destruct (H (length r') e p X) as (_ & _ & B); [rewrite nth_error_app2, Nat.sub_diag; auto|].
    replace (nth_error es (S (length r'))) with (@None edge) in B; auto. symmetry. apply nth_error_None. lia.
  - exists (map (fun e => sg_id (e_seg e)) es).
    assert (Q : forall k e p, nth_error es k = Some e -> nth_error r k = Some p -> map lane_id (ph_ranges p) = lanes_of m (sg_id (e_seg e)) /\
        forall x, In x (ph_starts p) \/ In x (ph_ends p) -> seg_of m (at_lane x) = sg_id (e_seg e)).
    { intros k e p X Y. destruct (H k e p X Y) as ((a & b & M) & _). destruct (make_phase_ok m _ _ _ _ _ M) as (A1 & A2 & A3 & _ & _ & A4 & _). rewrite A1, A2. auto. }
    split; [|split].
    + clear -Le Q. revert r Le Q. induction es as [|e es IH]; intros [|p r] Le Q; cbn; try discriminate; constructor.
      * apply (Q 0 e p); auto.
      * apply IH; [cbn in Le; lia|]. intros k. apply (Q (S k)).
    + destruct r as [|p r]; [congruence|]. destruct es as [|e es]; [discriminate Le|]. cbn. f_equal. destruct (H 0 e p eq_refl eq_refl) as (_ & A & _).
      symmetry. apply (Q 0 e p eq_refl eq_refl). rewrite A. left. left. auto.
    + destruct (@exists_last _ es) as (es' & e & ->); [intros ->; destruct r; [congruence|discriminate Le]|].
      rewrite map_app; cbn [map]; rewrite last_last. rewrite app_length in Le. cbn in Le.
      destruct (nth_error r (length es')) as [p|] eqn:X; [|apply nth_error_None in X; lia].
      assert (Y : nth_error (es' ++ [e]) (length es') = Some e) by (rewrite nth_error_app2, Nat.sub_diag; auto).
      destruct (H _ e p Y X) as (_ & _ & B). replace (nth_error (es' ++ [e]) (S (length es'))) with (@None edge) in B; [|symmetry; apply nth_error_None; rewrite app_length; cbn; lia].
      symmetry. apply (Q _ e p Y X). rewrite B. right. left. auto.
Qed.
Print Assumptions compute_routes_sound.

(** The constraints filter the unconstrained answer: for consistent limits, what is
    returned are exactly the unconstrained routes that satisfy the constraints, in order
    (where lane switches are forbidden, provided consecutive phases list their joined
    positions in the same order). *)
Theorem compute_routes_filtered_partial m rt start goal c all : lengths_ok m -> (forall s, NoDup (lanes_of m s)) ->
  ComputeRoutes m rt start goal (mk_constraints true None None) = Ok all -> limits_consistent c ->
  (allow_switch c = false -> forall r k p q, In r all -> nth_error r k = Some p -> nth_error r (S k) = Some q -> listed_alike (net m) p q) ->
  exists l, ComputeRoutes m rt start goal c = Ok l /\ filtered (satisfies (net m) c) l all.
Proof.
  intros Lo Nd E Lc Al. destruct (compute_split _ _ _ _ _ _ E) as (seqs & rs & Un & _ & F & Va). rewrite filter_trivial in F. inversion F; subst rs; clear F.
  rewrite (compute_join m rt start goal c seqs all Un (proj2 (proj1 (constraints_accepted_iff c)) Lc)).
  pose proof (validate_routes_ok m all tt Va) as Cn.
  assert (D : forall r, In r all -> (keep_route c r = Ok true /\ satisfies (net m) c r) \/ (keep_route c r = Ok false /\ ~ satisfies (net m) c r)).
  { intros r I. destruct (unfiltered_from m rt start goal seqs all r Un I) as (es & _ & Mk & Nr).
    pose proof (limits_spec c r (make_phases_measurable m _ _ _ _ _ _ _ Lo Mk) (proj1 Lc)) as Li.
    unfold keep_route, satisfies. destruct (at_most (max_phase c) _) eqn:A1; cbn [negb]; [|right; split; auto; intros [W _]; apply Li in W; destruct W; discriminate].
    destruct (at_most (max_route c) _) eqn:A2; cbn [negb]; [|right; split; auto; intros [W _]; apply Li in W; destruct W; discriminate].
    assert (W : within_limits c r) by (apply Li; auto). destruct (allow_switch c) eqn:Sw; [left; split; auto; split; auto; discriminate|].
    destruct (compute_routes_sound m rt start goal _ all r Lo E I) as (_ & _ & (p & Hp & Hs) & G & _).
    destruct (has_switch_spec m r Nr (make_phases_lanes m _ _ _ _ _ _ _ Nd Mk) (ex_intro _ p (ex_intro _ start (conj Hp Hs)))
       (fun q Iq Lq => ex_intro _ goal (G q Iq Lq)) (fun k x y => Al eq_refl r k x y I)) as [[-> T]|[-> T]]; cbn; [left|right]; split; auto; tauto. }
  assert (X : exists l, FilterRoutes c all = Ok l /\ filtered (satisfies (net m) c) l all /\ incl l all).
  { clear -D. induction all as [|r rs IH]; [exists []; split; [reflexivity|]; split; [constructor|intros ? []]|].
    destruct IH as (l & El & Fl & Il); [intros; apply D; right; auto|]. cbn [FilterRoutes]. rewrite El. destruct (D r (or_introl eq_refl)) as [[-> S]|[-> S]]; cbn [obind omap].
    - exists (r :: l). split; [reflexivity|]. split; [apply filtered_keep; auto|]. intros x [<-|I]; [left|right]; auto.
    - exists l. split; [reflexivity|]. split; [apply filtered_drop; auto|]. intros x I. right. auto. }
  destruct X as (l & El & Fl & Il). exists l. rewrite El. cbn [obind]. rewrite (validate_routes_complete m l); auto.
Qed.
Print Assumptions compute_routes_filtered_partial.

(** ** Demonstration networks: straight lanes of length 10 given by a table. *)
Record row := mk_row { w_id : nat; w_seg : nat; w_from : Q * Q; w_to : Q * Q; w_bps : nat * bool; w_bpf : nat * bool }.
Definition pt (x y : Q) : Q * Q := (x, y).
Definition row_of (t : list row) (l : nat) : option row := find (fun w => Nat.eqb (w_id w) l) t.
Definition end_of (w : row) (e : bool) : nat * bool := if e then w_bpf w else w_bps w.
Definition ends_at (t : list row) (l : nat) (e : bool) (opposite : bool) : list (nat * bool) :=
  match row_of t l with
  | None => []
  | Some w => flat_map (fun v => flat_map (fun f => if Nat.eqb (fst (end_of v f)) (fst (end_of w e)) && xorb (Bool.eqb (snd (end_of v f)) (snd (end_of w e))) opposite then [(w_id v, f)] else []) [false; true]) t
  end.
Definition lanes_in (t : list row) (s : nat) : list nat := map w_id (filter (fun w => Nat.eqb (w_seg w) s) t).
Fixpoint after (l : nat) (ls : list nat) : option nat :=
  match ls with a :: (b :: _) as ls' => if Nat.eqb a l then Some b else after l ls' | _ => None end.
Definition seg_in (t : list row) (l : nat) : nat := match row_of t l with Some w => w_seg w | None => 0 end.
Definition table_net (t : list row) : network := mk_net
  (fun l => match row_of t l with Some _ => Some 10%Q | None => None end)
  (fun l => after l (lanes_in t (seg_in t l)))
  (fun l => after l (rev (lanes_in t (seg_in t l))))
  (fun l e => ends_at t l e true)
  (fun l p => match row_of t l with
              | Some w => mk_vec (Qred (fst (w_from w) + ps p / 10 * (fst (w_to w) - fst (w_from w)))) (Qred (snd (w_from w) + ps p / 10 * (snd (w_to w) - snd (w_from w)))) 0
              | None => mk_vec 0 0 0 end)
  (fun _ _ => mk_vec 1 0 0) (fun _ _ => mk_vec 0 0 1) (fun _ v => (mk_lpos 0 0 0, v, 0%Q)) (fun _ _ => 0%Q) (fun _ _ => ((-(2))%Q, 2%Q)) (1 # 1000).
Definition table_roads (t : list row) : roads := mk_roads (table_net t) (seg_in t) (lanes_in t) (fun l e => ends_at t l e false)
  (fun l e => match row_of t l with Some w => fst (end_of w e) | None => 0 end)
  (fun bp => flat_map (fun w => flat_map (fun f => if Nat.eqb (fst (end_of w f)) bp && snd (end_of w f) then [w_seg w] else []) [false; true]) t)
  (fun l => l).
Definition pos (l : nat) (s : Q) : rpos := mk_rpos l (mk_lpos s 0 0).
Definition tol : Q := 1 # 1000.

Lemma table_lengths t : lengths_ok (table_roads t).
Proof. intros l x. cbn. destruct (row_of t l); [|discriminate]. intro H. inversion H. vm_compute. split; discriminate. Qed.
Lemma table_lanes t : NoDup (map w_id t) -> forall s, NoDup (lanes_of (table_roads t) s).
Proof.
  intros N s. cbn. unfold lanes_in. induction t as [|w t IH]; cbn; [constructor|]. inversion N; subst. destruct (Nat.eqb (w_seg w) s); auto. cbn. constructor; auto.
  intro I. apply H1. apply in_map_iff in I. destruct I as (x & E & I). apply filter_In in I. apply in_map_iff. exists x. tauto.
Qed.

(** Two segments one after the other, two lanes each. *)
Definition straight : list row :=
  [mk_row 1 100 (pt 0 0) (pt 10 0) (40, false) (50, true); mk_row 2 100 (pt 0 4) (pt 10 4) (41, false) (51, true);
   mk_row 3 200 (pt 10 0) (pt 20 0) (50, false) (60, true); mk_row 4 200 (pt 10 4) (pt 20 4) (51, false) (61, true)].
Definition answer (t : list row) (segs : list nat) (a b : rpos) (c : constraints) : outcome (list route) :=
  obind (DistanceRouter (table_roads t) segs tol) (fun rt => ComputeRoutes (table_roads t) rt a b c).
Definition rng (l : nat) (a b : Q) : lsrange := mk_lsrange l (mk_srange a b).
Definition router_of (t : list row) (segs : list nat) : router :=
  match DistanceRouter (table_roads t) segs tol with Ok rt => rt | _ => mk_router 0 (mk_graph [] []) end.
Definition routes_of (t : list row) (segs : list nat) (a b : rpos) (c : constraints) : list route :=
  match answer t segs a b c with Ok l => l | _ => [] end.
Definition free : constraints := mk_constraints true None None.
Definition no_switch : constraints := mk_constraints false None None.

Ltac far := let X := fresh in intro X; destruct X as [(?A & ?B & ?C) _];
  (vm_compute in A; apply A; reflexivity) || (vm_compute in B; apply B; reflexivity).
Ltac near := split; [split; [|split]; vm_compute; discriminate|right].
Example compute_routes_example :
  lengths_ok (table_roads straight) /\ (forall s, NoDup (lanes_of (table_roads straight) s)) /\
  DistanceRouter (table_roads straight) [100; 200] tol = Ok (router_of straight [100; 200]) /\
  ComputeRoutes (table_roads straight) (router_of straight [100; 200]) (pos 1 2) (pos 3 5) free = Ok (routes_of straight [100; 200] (pos 1 2) (pos 3 5) free) /\
  length (routes_of straight [100; 200] (pos 1 2) (pos 3 5) free) = 1 /\ limits_consistent (mk_constraints false (Some 8%Q) (Some 13%Q)) /\
  (forall r k p q, In r (routes_of straight [100; 200] (pos 1 2) (pos 3 5) free) -> nth_error r k = Some p -> nth_error r (S k) = Some q -> listed_alike (net (table_roads straight)) p q) /\
  length (routes_of straight [100; 200] (pos 1 2) (pos 3 5) (mk_constraints false (Some 8%Q) (Some 13%Q))) = 1 /\
  length (routes_of straight [100; 200] (pos 1 2) (pos 3 5) (mk_constraints false (Some 8%Q) (Some 12%Q))) = 0 /\
  length (routes_of straight [100; 200] (pos 1 2) (pos 3 5) (mk_constraints false (Some 7%Q) (Some 13%Q))) = 0 /\
  length (routes_of straight [100; 200] (pos 1 2) (pos 4 5) no_switch) = 0.
Proof.
  split; [apply table_lengths|]. split; [apply table_lanes; cbn; repeat constructor; cbn; intuition discriminate|].
  split; [vm_compute; reflexivity|]. split; [vm_compute; reflexivity|]. split; [vm_compute; reflexivity|].
  split; [split; [|split]; cbn; intros; repeat match goal with H : Some _ = Some _ |- _ => inversion H; clear H; subst end; lra|].
  split; [|repeat split; vm_compute; reflexivity].
  intros r k p q I P Q. vm_compute in I. destruct I as [<-|[]]. destruct k as [|[|[|k]]]; try discriminate Q. inversion P; inversion Q; subst p q. clear P Q. split; [reflexivity|].
  intros i j e s A B. cbn in A, B. destruct i as [|[|[|i]]], j as [|[|[|j]]]; cbn in A, B; try discriminate; inversion A; inversion B; subst e s; clear A B; (split; [try auto|intro; try lia]).
  all: try (intro X; exfalso; revert X; far).
  - near. exists true, false. vm_compute. auto.
  - near. exists true, false. vm_compute. auto.
Qed.

(** Finding: positions of consecutive phases are matched by index.  Where the second
    segment runs the other way its lanes are listed in the other order, and the route
    returned with lane switches forbidden needs one, *)
Definition opposed : list row :=
  [mk_row 1 100 (pt 0 0) (pt 10 0) (40, false) (50, true); mk_row 2 100 (pt 0 4) (pt 10 4) (41, false) (51, true);
   mk_row 3 200 (pt 20 4) (pt 10 4) (61, true) (51, false); mk_row 4 200 (pt 20 0) (pt 10 0) (60, true) (50, false)].
Definition crossing : route := Eval vm_compute in hd [] (routes_of opposed [100; 200] (pos 1 2) (pos 3 5) no_switch).
Definition ahead : route := Eval vm_compute in hd [] (routes_of opposed [100; 200] (pos 1 2) (pos 4 5) free).
Theorem no_lane_switch_sound_refuted :
  exists m rt segs start goal l r, DistanceRouter m segs tol = Ok rt /\ ComputeRoutes m rt start goal no_switch = Ok l /\ In r l /\ ~ no_lane_switch (net m) r.
Proof.
  exists (table_roads opposed), (router_of opposed [100; 200]), [100; 200], (pos 1 2), (pos 3 5), (routes_of opposed [100; 200] (pos 1 2) (pos 3 5) no_switch),
    crossing.
  split; [vm_compute; reflexivity|]. split; [vm_compute; reflexivity|]. split; [vm_compute; left; reflexivity|].
  intros (p & r' & s & E & Hs & T). unfold crossing in E, T. inversion E; subst p r'; clear E. cbn in Hs. inversion Hs; subst s; clear Hs.
  inversion T as [s0 p0 e0 I0 El0 X0 Y0|s0 p0 e0 q0 r0 s0' I0 El0 Is0 J0 T0]; subst; clear T. cbn in I0, Is0.
  destruct I0 as [<-|[<-|[]]]; [|discriminate El0]. destruct Is0 as [<-|[<-|[]]]; [revert J0; far|].
  inversion T0 as [s1 p1 e1 I1 El1|s1 p1 e1 q1 r1 s1' I1 El1 Is1 J1 T1]; subst. cbn in I1. destruct I1 as [<-|[]]. discriminate El1.
Qed.
Print Assumptions no_lane_switch_sound_refuted.
(** while the route that stays on its lane is dropped. *)
Theorem no_lane_switch_complete_refuted :
  exists m rt segs start goal all r, DistanceRouter m segs tol = Ok rt /\ ComputeRoutes m rt start goal free = Ok all /\ In r all /\ no_lane_switch (net m) r /\
    ComputeRoutes m rt start goal no_switch = Ok [].
Proof.
  exists (table_roads opposed), (router_of opposed [100; 200]), [100; 200], (pos 1 2), (pos 4 5), (routes_of opposed [100; 200] (pos 1 2) (pos 4 5) free),
    ahead.
  split; [vm_compute; reflexivity|]. split; [vm_compute; reflexivity|]. split; [vm_compute; left; reflexivity|]. split; [|vm_compute; reflexivity].
  unfold ahead. do 3 eexists. split; [reflexivity|]. split; [reflexivity|].
  eapply stays_more with (e := pos 1 10) (s' := pos 4 10); [left; reflexivity|reflexivity|right; left; reflexivity| |]; [|eapply stays_last; [left; reflexivity|reflexivity]].
  split; [split; [|split]; vm_compute; discriminate|]. right. exists true, true. vm_compute. auto.
Qed.
Print Assumptions no_lane_switch_complete_refuted.

(** Finding: edges added for the start or the goal are not checked.  At a fork the
    sequence that leaves by the other branch is not drivable from the start; the whole
    query then throws, although another route satisfies the constraints. *)
Definition fork : list row :=
  [mk_row 1 100 (pt 0 0) (pt 10 0) (40, false) (50, true); mk_row 2 200 (pt 0 0) (pt 0 10) (40, false) (51, true);
   mk_row 3 300 (pt 10 0) (pt 0 10) (50, false) (51, false)].
Definition around : list phase :=
  [mk_phase tol [pos 1 2] [pos 1 10] [rng 1 2 10]; mk_phase tol [pos 3 0] [pos 3 10] [rng 3 0 10]; mk_phase tol [pos 2 10] [pos 2 5] [rng 2 10 5]].
Theorem one_bad_route_throws_refuted :
  exists m rt segs start goal r, DistanceRouter m segs tol = Ok rt /\ ComputeRoutes m rt start goal no_switch = Throw /\
    (forall p, In p r -> Phase (net m) tol (ph_starts p) (ph_ends p) (ph_ranges p) = Ok p) /\
    (exists p, hd_error r = Some p /\ ph_starts p = [start]) /\ (forall p, In p r -> last r p = p -> ph_ends p = [goal]) /\
    Connected (net m) r = Ok true /\ satisfies (net m) no_switch r.
Proof.
  exists (table_roads fork), (router_of fork [100; 200; 300]), [100; 200; 300], (pos 1 2), (pos 2 5), around.
  split; [vm_compute; reflexivity|]. split; [vm_compute; reflexivity|]. split; [intros p [<-|[<-|[<-|[]]]]; reflexivity|].
  split; [eexists; split; reflexivity|]. split; [intros p [<-|[<-|[<-|[]]]] X; try discriminate X; reflexivity|].
  split; [vm_compute; reflexivity|]. split; [split; intros; discriminate|]. intros _. do 3 eexists. split; [reflexivity|]. split; [reflexivity|].
  eapply stays_more with (e := pos 1 10) (s' := pos 3 0); [left; reflexivity|reflexivity|left; reflexivity|split; [split; [|split]; vm_compute; discriminate|]; right; exists true, false; vm_compute; auto|].
  eapply stays_more with (e := pos 3 10) (s' := pos 2 10); [left; reflexivity|reflexivity|left; reflexivity|split; [split; [|split]; vm_compute; discriminate|]; right; exists true, true; vm_compute; auto|].
  eapply stays_last; [left; reflexivity|reflexivity].
Qed.
Print Assumptions one_bad_route_throws_refuted.
(** Even a plain pair of branches of a fork, with no route, throws instead of giving none. *)
Theorem fork_without_route_refuted :
  exists m rt segs start goal, DistanceRouter m segs tol = Ok rt /\ known m (at_lane start) = true /\ known m (at_lane goal) = true /\ ComputeRoutes m rt start goal free = Throw.
Proof.
  exists (table_roads (firstn 2 fork)), (router_of (firstn 2 fork) [100; 200]), [100; 200], (pos 1 2), (pos 2 5). vm_compute. auto.
Qed.
Print Assumptions fork_without_route_refuted.

(** Finding: no route to the segment right behind the start, although routes against the
    direction of the lanes are found to segments further behind. *)
Definition chain : list row := straight ++ [mk_row 5 300 (pt 20 0) (pt 30 0) (60, false) (70, true); mk_row 6 300 (pt 20 4) (pt 30 4) (61, false) (71, true)].
Definition back : list phase :=
  [mk_phase tol [pos 3 5] [pos 3 0; pos 4 0] [rng 3 5 0; rng 4 5 0]; mk_phase tol [pos 1 10; pos 2 10] [pos 1 5] [rng 1 10 5; rng 2 10 5]].
Theorem segment_behind_refuted :
  exists m rt segs start goal r, DistanceRouter m segs tol = Ok rt /\ ComputeRoutes m rt start goal free = Ok [] /\
    (forall p, In p r -> Phase (net m) tol (ph_starts p) (ph_ends p) (ph_ranges p) = Ok p) /\
    (exists p, hd_error r = Some p /\ ph_starts p = [start]) /\ (forall p, In p r -> last r p = p -> ph_ends p = [goal]) /\
    Connected (net m) r = Ok true /\ satisfies (net m) free r /\
    exists start' l, ComputeRoutes m rt start' goal free = Ok l /\ length l = 1.
Proof.
  exists (table_roads chain), (router_of chain [100; 200; 300]), [100; 200; 300], (pos 3 5), (pos 1 5), back.
  split; [vm_compute; reflexivity|]. split; [vm_compute; reflexivity|]. split; [intros p [<-|[<-|[]]]; reflexivity|].
  split; [eexists; split; reflexivity|]. split; [intros p [<-|[<-|[]]] X; try discriminate X; reflexivity|].
  split; [vm_compute; reflexivity|]. split; [split; [split|]; intros; discriminate|].
  exists (pos 5 5), (routes_of chain [100; 200; 300] (pos 5 5) (pos 1 5) free). split; vm_compute; reflexivity.
Qed.
Print Assumptions segment_behind_refuted.

(** In terms of the graph: whenever the start lane starts at the node where the goal lane
    finishes, the answer is empty. *)
Theorem compute_routes_same_node m rt start goal c sn : limits_consistent c -> known m (at_lane start) = true -> known m (at_lane goal) = true ->
  FindNodeAt (node_order m) (r_graph rt) (bp_of m (at_lane start) false) = Some sn -> FindNodeAt (node_order m) (r_graph rt) (bp_of m (at_lane goal) true) = Some sn ->
  node_in (r_graph rt) sn -> (exists e, In (seg_of m (at_lane start), e) (g_edges (r_graph rt))) -> (exists e, In (seg_of m (at_lane goal), e) (g_edges (r_graph rt))) ->
  ComputeRoutes m rt start goal c = Ok [].
Proof.
  intros L K1 K2 F1 F2 N E1 E2. unfold ComputeRoutes. rewrite K1, K2. cbn [throw_unless]. rewrite (proj2 (proj1 (constraints_accepted_iff c)) L). cbn [obind]. rewrite F1, F2.
  rewrite (proj2 (find_all_edge_sequences_degenerate (a_side_of m) (r_graph rt) sn sn) N). cbn [obind]. unfold MaybeAddStartAndEndEdges, gat.
  assert (X : forall k, (exists e, In (k, e) (g_edges (r_graph rt))) -> exists e, mfind Nat.eqb k (g_edges (r_graph rt)) = Some e).
  { intros k [e I]. destruct (mfind Nat.eqb k (g_edges (r_graph rt))) eqn:Fk; eauto. exfalso. revert I Fk. clear. induction (g_edges (r_graph rt)) as [|[k' e'] l IH]; cbn; [tauto|].
    intros [H|H] Fk; destruct (Nat.eqb_spec k k'); try discriminate; [congruence|auto]. }
  destruct (X _ E1) as [e1 ->], (X _ E2) as [e2 ->]. reflexivity.
Qed.
Print Assumptions compute_routes_same_node.

(** The router is made exactly when the tolerance is not negative and the lanes of every segment
    have different branch points at each end; otherwise the constructor throws. *)
Theorem router_made m segs tolerance : any_order (node_order m) -> NoDup segs ->
  ((exists rt, DistanceRouter m segs tolerance = Ok rt) <->
   (0 <= tolerance)%Q /\ forall s, In s segs -> NoDup (map (fun l => bp_of m l false) (lanes_of m s)) /\ NoDup (map (fun l => bp_of m l true) (lanes_of m s))) /\
  (DistanceRouter m segs tolerance = Throw \/ exists rt, DistanceRouter m segs tolerance = Ok rt).
Proof.
  intros O N. set (ss := map (segment_of m) segs).
  assert (NS : NoDup (map sg_id ss)) by (unfold ss; rewrite map_map; cbn [segment_of sg_id]; rewrite map_id; exact N).
  assert (SEP : forall s, separate_lanes (segment_of m s) <-> NoDup (map (fun l => bp_of m l false) (lanes_of m s)) /\ NoDup (map (fun l => bp_of m l true) (lanes_of m s))).
  { intro s. unfold separate_lanes, segment_of. cbn [sg_lanes]. rewrite !map_map. reflexivity. }
  assert (D : (exists g, BuildGraph (node_order m) ss = Ok g) \/ BuildGraph (node_order m) ss = Throw).
  { destruct (build_graph_returns (node_order m) ss O NS) as (_ & B). unfold BuildGraph in *. destruct (add_segments_inv _ O ss [] (mk_graph [] []) 0 binv_init NS) as [(S & g & n & -> & _)|(S & ->)]; cbn [omap]; eauto. }
  destruct (build_graph_returns (node_order m) ss O NS) as (B1 & B2). unfold DistanceRouter. fold ss. split.
  - split.
    + intros (rt & E). destruct D as [(g & Eg)|Eg]; rewrite Eg in E; cbn [obind] in E; [|discriminate]. destruct (Qleb 0 tolerance) eqn:Q; [|discriminate]. apply Qleb_true in Q. split; [exact Q|].
      intros s I. apply SEP. assert (Nx : ~ exists x, In x ss /\ ~ separate_lanes x) by (intro X; apply B1 in X; congruence).
      destruct (ListDec.NoDup_dec Nat.eq_dec (map (fun l => bp_of m l false) (lanes_of m s))) as [X|X]; [destruct (ListDec.NoDup_dec Nat.eq_dec (map (fun l => bp_of m l true) (lanes_of m s))) as [Y|Y]; [apply SEP; auto|]|]; exfalso; apply Nx; exists (segment_of m s); (split; [apply in_map; exact I|]); intro Z; apply SEP in Z; tauto.
    + intros (Q & S). destruct B2 as (g & ->); [intros x I; apply in_map_iff in I; destruct I as (s & <- & I); apply SEP, S, I|]. cbn [obind]. apply Qleb_true in Q. rewrite Q. eexists. reflexivity.
  - destruct D as [(g & ->)| ->]; cbn [obind]; [destruct (Qleb 0 tolerance); cbn; eauto|auto].
Qed.
Print Assumptions router_made.
Example router_made_ex : any_order (node_order (table_roads straight)) /\ NoDup [100; 200] /\ (exists rt, DistanceRouter (table_roads straight) [100; 200] tol = Ok rt) /\
  DistanceRouter (table_roads straight) [100; 200] (- (1 # 2)) = Throw.
Proof. split; [intro l; apply Permutation.Permutation_refl|]. split; [repeat constructor; cbn; intuition discriminate|]. split; [eexists|]; vm_compute; reflexivity. Qed.
