(** C34: intersection books. *)
From Coq Require Import List QArith Bool Arith Lia Permutation.
From Verif Require Import Base Maps Regions_Model Regions_Spec Regions_Props Phases_Model Phases_Spec Phases_Proofs Hierarchy_Proofs RuleStates_Proofs
  Intersections_Model Intersections_Spec Intersections_Proofs.
Import ListNotations.
Local Open Scope nat_scope.

(** Unless undefined behaviour is reached, GetIntersection returns the intersection
    first added with the id (and nothing else) after any history. *)
Theorem intersection_book_lookup moves h b : add_all moves h [] = Ok b ->
  forall id i, GetIntersectionById b id = Some i <-> first_added h id i.
Proof.
  intro E. assert (K : keyed []) by (split; [constructor|intros k i []]).
  pose proof (add_all_spec moves h [] K) as S. rewrite E in S. destruct S as [_ S]. intros id i. unfold GetIntersectionById. rewrite S. cbn.
  split; [intros [H|[_ H]]; [discriminate|auto]|auto].
Qed.
Print Assumptions intersection_book_lookup.

(** It is not reached when no id is added twice, or when emplace does not move from its
    argument on failure; GetIntersections then lists what was added. *)
Theorem intersection_book_defined :
  (forall h, exists b, add_all false h [] = Ok b) /\
  (forall moves h, ids_once h -> exists b, add_all moves h [] = Ok b /\
     map snd b = flat_map (fun o => match o with Some i => [i] | None => [] end) h).
Proof.
  assert (K : keyed []) by (split; [constructor|intros k i []]). split.
  - intro h. pose proof (add_all_spec false h [] K) as S. destruct (add_all false h []) as [b| |]; [eauto|destruct S|discriminate].
  - intros moves h O. exact (add_all_once h [] K O (fun i _ => eq_refl) moves).
Qed.
Print Assumptions intersection_book_defined.

(** Finding: adding a second intersection with an id already present dereferences the
    moved-from pointer while building the message (libstdc++'s emplace moves). *)
Theorem intersection_book_duplicate_refuted :
  exists i, add_all true [Some i; Some i] [] = UB.
Proof. exists (mk_inter 1 [] (mk_ring 1 [] [])). reflexivity. Qed.
Print Assumptions intersection_book_duplicate_refuted.

(** Searches by key.  [l] is the contents in whatever order the hash map gives. *)
Theorem intersection_find_by_rule current (b : book) l id : Permutation l (map snd b) ->
  (forall i, In i l -> NoDup (keys (rg_phases (i_ring i))) /\ phase_known current i) ->
  (exists r, find_inter (IncludesRule current id) l = Ok r /\ search_result (map snd b) (governs_rule current id) r) /\
  (exists r, find_inter (IncludesRow current id) l = Ok r /\ search_result (map snd b) (governs_row current id) r) /\
  (forall light_of, exists r, find_inter (IncludesLight current light_of id) l = Ok r /\ search_result (map snd b) (shows_light current light_of id) r).
Proof.
  intros P H.
  assert (W : forall Q r, search_result l Q r -> search_result (map snd b) Q r).
  { intros Q [i|] R; cbn in *; [destruct R; split; auto; apply (Permutation_in _ P); auto|].
    intros i Hi. apply R. apply (Permutation_in _ (Permutation_sym P)). exact Hi. }
  split; [|split].
  - destruct (find_inter_ok (IncludesRule current id) (governs_rule current id) l) as (r & E & R); [|exists r; auto].
    intros i Hi. destruct (H i Hi). apply includes_rule_ok; auto.
  - destruct (find_inter_ok (IncludesRow current id) (governs_row current id) l) as (r & E & R); [|exists r; auto].
    intros i Hi. destruct (H i Hi). apply includes_row_ok; auto.
  - intro light_of. destruct (find_inter_ok (IncludesLight current light_of id) (shows_light current light_of id) l) as (r & E & R); [|exists r; auto].
    intros i Hi. destruct (H i Hi). apply includes_light_ok; auto.
Qed.
Print Assumptions intersection_find_by_rule.

(** For rings accepted by PhaseRing's constructor and a provider that holds a phase of
    each ring, an intersection is found for a rule exactly when its ring covers the rule. *)
Theorem intersection_governs_iff_covers i m pr : ring_ok (i_ring i) ->
  ProviderGetPhase m (rg_id (i_ring i)) = Some pr -> has_phase (i_ring i) (p_state pr) ->
  let current := fun i => option_map p_state (ProviderGetPhase m (rg_id (i_ring i))) in
  (forall r, governs_rule current r i <-> covers_rule (i_ring i) r) /\
  (forall r, governs_row current r i <-> covers_row (i_ring i) r).
Proof.
  intros (_ & N & M & S) G H. cbn zeta.
  unfold has_phase, keys in H. apply in_map_iff in H. destruct H as ([k p] & Ek & Hp). cbn in Ek. subst k.
  assert (A : at_phase (fun i => option_map p_state (ProviderGetPhase m (rg_id (i_ring i)))) i p).
  { exists (p_state pr). rewrite G. auto. }
  assert (Ip : In p (map snd (rg_phases (i_ring i)))) by (apply (in_map snd) in Hp; exact Hp).
  split; intro r; split.
  - intros (q & (id & _ & Hq) & Hr). exists q. split; auto. apply (in_map snd) in Hq. exact Hq.
  - intros (q & Hq & Hr). exists p. split; auto. apply (proj2 (S q p Hq Ip)). exact Hr.
  - intros (q & (id & _ & Hq) & Hr). exists q. split; auto. apply (in_map snd) in Hq. exact Hq.
  - intros (q & Hq & Hr). exists p. split; auto. apply (proj1 (S q p Hq Ip)). exact Hr.
Qed.
Print Assumptions intersection_governs_iff_covers.

(** Finding: without a current phase the search misses an intersection whose ring
    covers the rule. *)
Theorem intersection_find_no_phase_refuted :
  exists i r, ring_ok (i_ring i) /\ covers_rule (i_ring i) r /\
    find_inter (IncludesRule (fun i => option_map p_state (ProviderGetPhase [] (rg_id (i_ring i)))) r) [i] = Ok None.
Proof.
  set (p := mk_phase 3 [] [(7, 1)] None).
  exists (mk_inter 1 [] (mk_ring 2 [(3, p)] [])), 7. split; [|split; [|reflexivity]].
  - split; [discriminate|]. split; [repeat constructor; intros []|]. split.
    + intros id q [H|[]]. inversion H; subst. split; auto. split; [constructor|]. split; [repeat constructor; intros []|]. discriminate.
    + intros q q' [<-|[]] [<-|[]]. split; split; auto.
  - exists p. split; left; auto.
Qed.
Print Assumptions intersection_find_no_phase_refuted.

(** When at most one intersection qualifies, the result does not depend on the hash order. *)
Theorem intersection_find_order_free inc l l' : Permutation l l' ->
  (forall i, In i l -> exists x, inc i = Ok x) ->
  (forall i j, In i l -> In j l -> inc i = Ok true -> inc j = Ok true -> i = j) ->
  find_inter inc l = find_inter inc l'.
Proof.
  intros P O U.
  assert (S : forall k, Permutation l k -> exists r, find_inter inc k = Ok r /\ search_result l (fun i => inc i = Ok true) r).
  { intros k Pk. destruct (find_inter_ok inc (fun i => inc i = Ok true) k) as (r & E & R).
    - intros i Hi. destruct (O i) as [x X]; [apply (Permutation_in _ (Permutation_sym Pk)); auto|]. exists x. split; auto. rewrite X. split; congruence.
    - exists r. split; auto. destruct r as [i|]; cbn in *; [destruct R; split; auto; apply (Permutation_in _ (Permutation_sym Pk)); auto|].
      intros i Hi. apply R. apply (Permutation_in _ Pk). exact Hi. }
  destruct (S l (Permutation_refl l)) as (r & -> & R). destruct (S l' P) as (r' & -> & R'). f_equal.
  destruct r as [i|], r' as [j|]; cbn in *; auto.
  - f_equal. destruct R, R'. auto.
  - destruct R as [Hi Ti]. destruct (R' i Hi Ti).
  - destruct R' as [Hj Tj]. destruct (R j Hj Tj).
Qed.
Print Assumptions intersection_find_order_free.

(** By position: a returned intersection has the position on one of its ranges; the
    converse needs what IsIncluded needs (C05): at most one range within tolerance. *)
Theorem intersection_find_by_position to_lane tol l : (0 <= tol)%Q -> s_nonneg to_lane ->
  (forall i, In i l -> i_region i <> [] /\ Forall lvalid (i_region i) /\ forall r, In r (i_region i) -> to_lane (lane_id r) <> None) ->
  exists res, find_inter (IncludesPosition to_lane tol) l = Ok res /\
    (forall i, res = Some i -> In i l /\ exists r, In r (i_region i) /\ on_range to_lane tol r) /\
    (res = None -> forall i, In i l -> decisive to_lane tol (i_region i) -> ~ exists r, In r (i_region i) /\ on_range to_lane tol r).
Proof.
  intros T S H. destruct (find_inter_ok (IncludesPosition to_lane tol) (fun i => IncludesPosition to_lane tol i = Ok true) l) as (r & E & R).
  - intros i Hi. destruct (H i Hi) as (N & V & L). destruct (is_included_sound to_lane tol T (i_region i) V S N L) as (b & B & _).
    exists b. unfold IncludesPosition. split; auto. rewrite B. split; congruence.
  - exists r. split; auto. split.
    + intros i ->. destruct R as [Hi Ti]. split; auto. destruct (H i Hi) as (N & V & L).
      destruct (is_included_sound to_lane tol T (i_region i) V S N L) as (b & B & Bt). unfold IncludesPosition in Ti. apply Bt. congruence.
    + intros -> i Hi D X. destruct (H i Hi) as (N & V & L). apply (R i Hi). apply is_included_complete_partial; auto.
Qed.
Print Assumptions intersection_find_by_position.

(** FindIntersections(region, tolerance) keeps exactly the intersections with a range
    near one of the given ranges. *)
Theorem intersection_find_by_region l region tol : (0 <= tol)%Q -> Forall lvalid region -> (forall i, In i l -> Forall lvalid (i_region i)) ->
  exists r, FindIntersections l region tol = Ok r /\ sublist r l /\ forall i, In i r <-> In i l /\ rnear tol (i_region i) region.
Proof. intros T G V. exact (find_intersections_ok l region tol V G T). Qed.
Print Assumptions intersection_find_by_region.

Definition ring_a : ring := mk_ring 20 [(1, mk_phase 1 [(5, 1)] [(7, 1)] (Some [(100, 0)])); (2, mk_phase 2 [(5, 2)] [(7, 0)] (Some [(100, 1)]))] [].
Definition ring_b : ring := mk_ring 21 [(1, mk_phase 1 [] [(8, 1)] (Some [(200, 0)]))] [].
Definition ia : inter := mk_inter 1 [mk_lsrange 1 (mk_srange 0 5)] ring_a.
Definition ib : inter := mk_inter 2 [mk_lsrange 2 (mk_srange 0 5)] ring_b.
Example intersection_book_example :
  exists b, add_all true [Some ia; None; Some ib] [] = Ok b /\ GetIntersectionById b 2 = Some ib /\
  let current := fun i => option_map p_state (ProviderGetPhase [(20, mk_presult 2 None); (21, mk_presult 1 None)] (rg_id (i_ring i))) in
  find_inter (IncludesRule current 8) (map snd b) = Ok (Some ib) /\
  find_inter (IncludesRow current 5) (map snd b) = Ok (Some ia) /\
  find_inter (IncludesRow current 6) (map snd b) = Ok None /\
  find_inter (IncludesLight current (fun x => x / 100) 2) (map snd b) = Ok (Some ib) /\
  FindIntersections (map snd b) [mk_lsrange 2 (mk_srange 6 7)] 1 = Ok [ib] /\
  (forall i, In i (map snd b) -> NoDup (keys (rg_phases (i_ring i))) /\ phase_known current i).
Proof.
  eexists. split; [reflexivity|]. repeat (split; [reflexivity|]).
  intros i [<-|[<-|[]]]; (split; [repeat constructor; cbn; intuition discriminate|]); intros id H; inversion H; subst; cbn; auto.
Qed.
