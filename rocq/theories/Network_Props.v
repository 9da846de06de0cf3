(** C106, C107: road networks, books of traffic lights and the rule tools. *)
From Coq Require Import String Ascii List Bool Arith ZArith Lia.
From Verif Require Import Base Maps RuleStates_Model RuleStates_Spec RuleStates_Proofs RuleStates_Props Hierarchy_Model Hierarchy_Spec Hierarchy_Proofs Hierarchy_Props Network_Model Network_Spec.
Import ListNotations.

(** A component that is null. *)
Ltac one_null :=
  split; [intros n; split; [discriminate|intros H; repeat match goal with H : _ /\ _ |- _ => destruct H end; discriminate]
         |split; [intros _; repeat first [reflexivity | left; reflexivity | right]|reflexivity]].

(** ** C106 *)
(** A road network is made exactly when no component is missing, and holds the components given; otherwise the
    constructor throws. *)
Theorem network_built : forall g rb tl ib pr pp rr dv rv,
  (forall n, RoadNetwork g rb tl ib pr pp rr dv rv = Ok n <->
    g = Some (n_geometry n) /\ rb = Some (n_rulebook n) /\ tl = Some (n_lights n) /\ ib = Some (n_intersections n) /\
    pr = Some (n_rings n) /\ pp = Some (n_phases n) /\ rr = Some (n_registry n) /\ dv = Some (n_discrete n) /\ rv = Some (n_range n) /\
    n_right_of_way n = None) /\
  (RoadNetwork g rb tl ib pr pp rr dv rv = Throw <->
    g = None \/ rb = None \/ tl = None \/ ib = None \/ pr = None \/ pp = None \/ rr = None \/ dv = None \/ rv = None).
Proof.
  intros g rb tl ib pr pp rr dv rv. unfold RoadNetwork, not_null.
  destruct g as [g|]; [|one_null]. destruct rb as [rb|]; [|one_null]. destruct tl as [tl|]; [|one_null]. destruct ib as [ib|]; [|one_null].
  destruct pr as [pr|]; [|one_null]. destruct pp as [pp|]; [|one_null]. destruct rr as [rr|]; [|one_null]. destruct dv as [dv|]; [|one_null]. destruct rv as [rv|]; [|one_null].
  split; [intros n; split|split; [discriminate|intros H; repeat (destruct H as [H|H]; [discriminate|]); discriminate]].
  - intros H. injection H as <-. cbn. repeat (split; [reflexivity|]). reflexivity.
  - intros (H1 & H2 & H3 & H4 & H5 & H6 & H7 & H8 & H9 & H10). destruct n. cbn in *. congruence.
Qed.
Print Assumptions network_built.

(** With a right of way state provider, all ten must be there. *)
Theorem network_built_deprecated : forall g rb tl ib pr row pp rr dv rv,
  (forall n, RoadNetworkDeprecated g rb tl ib pr row pp rr dv rv = Ok n <->
    g = Some (n_geometry n) /\ rb = Some (n_rulebook n) /\ tl = Some (n_lights n) /\ ib = Some (n_intersections n) /\
    pr = Some (n_rings n) /\ pp = Some (n_phases n) /\ rr = Some (n_registry n) /\ dv = Some (n_discrete n) /\ rv = Some (n_range n) /\
    row <> None /\ n_right_of_way n = row) /\
  (RoadNetworkDeprecated g rb tl ib pr row pp rr dv rv = Throw <->
    g = None \/ rb = None \/ tl = None \/ ib = None \/ pr = None \/ row = None \/ pp = None \/ rr = None \/ dv = None \/ rv = None).
Proof.
  intros g rb tl ib pr row pp rr dv rv. unfold RoadNetworkDeprecated, RoadNetwork, not_null, obind.
  destruct g as [g|]; [|one_null]. destruct rb as [rb|]; [|one_null]. destruct tl as [tl|]; [|one_null]. destruct ib as [ib|]; [|one_null].
  destruct pr as [pr|]; [|one_null]. destruct pp as [pp|]; [|one_null]. destruct rr as [rr|]; [|one_null]. destruct dv as [dv|]; [|one_null]. destruct rv as [rv|]; [|one_null].
  destruct row as [row|]; [|split; [intros n; split; [discriminate|intros (_ & _ & _ & _ & _ & _ & _ & _ & _ & H & _); congruence]|split; [intros _; repeat first [reflexivity | left; reflexivity | right]|reflexivity]]].
  split; [intros n; split|split; [discriminate|intros H; repeat (destruct H as [H|H]; [discriminate|]); discriminate]].
  - intros H. injection H as <-. cbn. repeat (split; [reflexivity|]). split; [discriminate|reflexivity].
  - intros (H1 & H2 & H3 & H4 & H5 & H6 & H7 & H8 & H9 & _ & H10). destruct n. cbn in *. congruence.
Qed.
Print Assumptions network_built_deprecated.

(** Contains(LaneId), for a road geometry put together by calls in any order, tells exactly whether a lane with this
    id can be reached from the road geometry over its junctions and segments. *)
Theorem network_contains_lane : forall lane_id seg_id jun_id bp_id,
  injective lane_id -> injective seg_id -> injective jun_id -> injective bp_id ->
  forall h n id, n_geometry n = act_run (step lane_id seg_id jun_id bp_id) h init_state ->
  (ContainsLane n id = true <-> exists l, rg_has_lane (n_geometry n) l /\ lane_id l = id).
Proof.
  intros lane_id seg_id jun_id bp_id A B C D h n id E. destruct (hierarchy_any_order lane_id seg_id jun_id bp_id A B C D h) as (_ & (I & _)).
  unfold ContainsLane. rewrite E. split.
  - intro H. destruct (ix_find KLane id (ids (act_run (step lane_id seg_id jun_id bp_id) h init_state))) as [l|] eqn:F; [|discriminate]. exists l. apply I. exact F.
  - intros (l & H). apply I in H. rewrite H. reflexivity.
Qed.
Print Assumptions network_contains_lane.

(** Finding: Contains(RoadPosition) is not about the network.  A position on a lane of another network is contained in this one though
    Contains of its lane's id is false, and a position without a lane is dereferenced. *)
Theorem network_contains_position_refuted :
  exists (n : network) (contains : nat -> unit -> outcome bool) (lane_id : nat -> nat) l,
    (forall l p, exists b, contains l p = Ok b) /\
    ContainsPosition contains n (Some l) tt = Ok true /\ ContainsLane n (lane_id l) = false /\
    ContainsPosition contains n None tt = UB.
Proof.
  exists (mk_network init_state 0 1 2 3 4 5 6 7 None), (fun _ _ => Ok true), (fun x => x), 9.
  split; [intros; eexists; reflexivity|]. repeat split.
Qed.
Print Assumptions network_contains_position_refuted.

Example network_example :
  let f := fun x : nat => x in
  let g := act_run (step f f f f) [OAddLane 5 8; OAddSegment 1 5; OAddLane 5 9; OAddLane 6 7; OAddJunction 1] init_state in
  exists n, RoadNetwork (Some g) (Some 1) (Some 2) (Some 3) (Some 4) (Some 5) (Some 6) (Some 7) (Some 8) = Ok n /\
    map (ContainsLane n) [7; 8; 9; 10] = [false; true; true; false] /\
    RoadNetwork (Some g) (Some 1) (Some 2) (Some 3) (Some 4) (Some 5) None (Some 7) (Some 8) = Throw.
Proof. eexists. split; [reflexivity|]. split; reflexivity. Qed.

(** ** C107: books of traffic lights *)
Lemma book_runs h : forall b id, GetTrafficLight (act_run AddTrafficLight h b) id =
  match GetTrafficLight b id with Some p => Some p | None => first_light id h end.
Proof.
  unfold GetTrafficLight. induction h as [|[l|] h IH]; intros b id; cbn [act_run first_light]; [destruct (mfind Nat.eqb id b); reflexivity| |].
  - rewrite IH. unfold AddTrafficLight. pose proof (memplace_spec Nat.eqb nat_eqb_ok (l_id l) (l_pointer l) b) as S.
    destruct (memplace Nat.eqb (l_id l) (l_pointer l) b) as [b'|]; cbn [fst].
    + destruct S as (N & _ & F). rewrite F. destruct (Nat.eqb id (l_id l)) eqn:E.
      * apply Nat.eqb_eq in E. subst id. rewrite N. destruct (Nat.eq_dec (l_id l) (l_id l)) as [_|X]; [reflexivity|contradiction].
      * apply Nat.eqb_neq in E. destruct (Nat.eq_dec (l_id l) id) as [X|_]; [congruence|reflexivity].
    + destruct S as (v & F). destruct (Nat.eq_dec (l_id l) id) as [<-|_]; [rewrite F|]; reflexivity.
  - cbn [AddTrafficLight fst]. apply IH.
Qed.

(** After any history of additions, those that throw included, the book gives for each id the traffic light added
    first with it. *)
Theorem light_book_finds : forall h id, GetTrafficLight (act_run AddTrafficLight h []) id = first_light id h.
Proof. intros h id. exact (book_runs h [] id). Qed.
Print Assumptions light_book_finds.

(** An addition throws exactly for a null pointer and for an id already there, and then changes nothing. *)
Theorem light_book_add_throws : forall h l, let b := act_run AddTrafficLight h [] in
  (snd (AddTrafficLight l b) = false <-> l = None \/ exists x p, l = Some x /\ first_light (l_id x) h = Some p) /\
  (snd (AddTrafficLight l b) = false -> fst (AddTrafficLight l b) = b).
Proof.
  intros h [x|] b; [|cbn; tauto]. pose proof (light_book_finds h (l_id x)) as G. fold b in G. unfold GetTrafficLight in G.
  unfold AddTrafficLight. pose proof (memplace_spec Nat.eqb nat_eqb_ok (l_id x) (l_pointer x) b) as S.
  destruct (memplace Nat.eqb (l_id x) (l_pointer x) b) as [b'|]; cbn [fst snd].
  - destruct S as (N & _). split; [|discriminate]. split; [discriminate|]. intros [H|(y & p & H & F)]; [discriminate|]. injection H as ->. congruence.
  - destruct S as (v & F). split; [|reflexivity]. split; [|reflexivity]. intros _. right. exists x, v. split; [reflexivity|congruence].
Qed.
Print Assumptions light_book_add_throws.

Lemma book_nodup h : forall b, NoDup (map fst b) -> NoDup (map fst (act_run AddTrafficLight h b)).
Proof.
  induction h as [|[l|] h IH]; intros b N; cbn [act_run]; [exact N| |cbn [AddTrafficLight fst]; auto].
  apply IH. unfold AddTrafficLight. pose proof (memplace_spec Nat.eqb nat_eqb_ok (l_id l) (l_pointer l) b) as S.
  destruct (memplace Nat.eqb (l_id l) (l_pointer l) b) as [b'|]; cbn [fst]; [|exact N].
  destruct S as (F & -> & _). apply (mfind_none Nat.eqb nat_eqb_ok) in F. rewrite map_app. cbn [map fst].
  apply (NoDup_Add (Add_app (l_id l) (map fst b) [])). rewrite app_nil_r. auto.
Qed.

(** TrafficLights lists the traffic lights that GetTrafficLight finds, as many as there are ids. *)
Theorem light_book_lists : forall h, let b := act_run AddTrafficLight h [] in
  (forall p, In p (TrafficLights b) <-> exists id, first_light id h = Some p) /\
  exists keys, NoDup keys /\ (forall id, In id keys <-> first_light id h <> None) /\ map Some (TrafficLights b) = map (fun id => first_light id h) keys.
Proof.
  intros h b. pose proof (book_nodup h [] (NoDup_nil _)) as N. fold b in N. pose proof (light_book_finds h) as G. fold b in G. unfold GetTrafficLight in G.
  split.
  - intro p. unfold TrafficLights. rewrite in_map_iff. split.
    + intros ((id, q) & E & H). cbn in E. subst q. exists id. rewrite <- G. apply (mfind_nodup Nat.eqb nat_eqb_ok); assumption.
    + intros (id & E). rewrite <- G in E. apply (mfind_in Nat.eqb nat_eqb_ok) in E. exists (id, p). auto.
  - exists (map fst b). split; [exact N|]. split.
    + intro id. rewrite <- G. split.
      * intros H F. apply (mfind_none Nat.eqb nat_eqb_ok) in F. contradiction.
      * intro H. destruct (mfind Nat.eqb id b) as [v|] eqn:F; [|contradiction]. apply (mfind_in Nat.eqb nat_eqb_ok) in F. apply in_map_iff. exists (id, v). auto.
    + unfold TrafficLights. rewrite !map_map. apply map_ext_in. intros (id, p) H. cbn [fst snd]. rewrite <- G. symmetry. apply (mfind_nodup Nat.eqb nat_eqb_ok); assumption.
Qed.
Print Assumptions light_book_lists.

Example light_book_example :
  let b := act_run AddTrafficLight [Some (mk_light 3 100); None; Some (mk_light 4 101); Some (mk_light 3 102)] [] in
  TrafficLights b = [100; 101] /\ GetTrafficLight b 3 = Some 100 /\ snd (AddTrafficLight (Some (mk_light 4 9)) b) = false /\ GetTrafficLight b 5 = None.
Proof. repeat split. Qed.

(** ** C107: rule tools *)
Definition returned (before : list (set_call dvalue)) (c : set_call dvalue) : bool :=
  snd (do_call dvalue_eqb c (act_run (do_call dvalue_eqb) before [])).

Lemma find_group_of k g l : find_group k g = Some l <-> group_of k g l.
Proof.
  unfold find_group, group_of. induction g as [|[k' l'] g IH]; cbn [mfind].
  - split; [discriminate|]. intros ([|i] & H & _); discriminate.
  - destruct (str_eqb k k') eqn:E.
    + apply str_eqb_ok in E. subst k'. split.
      * intro H. injection H as ->. exists 0. split; [reflexivity|]. intros j l0 L; lia.
      * intros ([|i] & H & M); [cbn in H; congruence|]. exfalso. apply (M 0 l'); [lia|reflexivity].
    + assert (k <> k') by (intro X; apply str_eqb_ok in X; congruence). rewrite IH. split; intros (i & H0 & M).
      * exists (S i). split; [exact H0|]. intros [|j] l0 L; cbn; [congruence|apply M; lia].
      * destruct i as [|i]; [cbn in H0; congruence|]. exists i. split; [exact H0|]. intros j l0 L. apply (M (S j) l0). lia.
Qed.

Lemma state_last h : forall id s, GetState (act_run (do_call dvalue_eqb) h []) id = Some s ->
  exists c, last_returned returned h id c /\ s_state s = c_state c.
Proof.
  induction h as [|c h IH] using rev_ind; intros id s H; [discriminate|].
  rewrite act_run_app in H. cbn [act_run] in H.
  pose proof (do_call_spec dvalue_eqb c (act_run (do_call dvalue_eqb) h [])) as S. fold (returned h c) in *.
  destruct (do_call dvalue_eqb c (act_run (do_call dvalue_eqb) h [])) as [m' ok] eqn:D. cbn [fst] in H. destruct S as (_ & F & _). rewrite F in H.
  assert (R : returned h c = ok) by (unfold returned; rewrite D; reflexivity).
  destruct (ok && Nat.eqb (c_id c) id) eqn:B.
  - apply andb_true_iff in B as (-> & B). apply Nat.eqb_eq in B. injection H as <-. exists c. split; [|reflexivity].
    exists h, []. split; [reflexivity|]. split; [exact B|]. split; [exact R|]. intros [|? ?] c' rest X; discriminate.
  - destruct (IH id s H) as (c0 & (bf & af & E & I & Rt & L) & St). exists c0. split; [|exact St].
    exists bf, (af ++ [c]). split; [rewrite E, <- app_assoc; reflexivity|]. split; [exact I|]. split; [exact Rt|].
    intros bt c' rest X Id. destruct rest as [|r rest] using rev_ind.
    + apply app_inj_tail in X as (<- & <-). replace (bf ++ c0 :: af) with h. rewrite R. destruct ok; [|reflexivity]. cbn in B. apply Nat.eqb_neq in B. contradiction.
    + rewrite app_comm_cons, app_assoc in X. apply app_inj_tail in X as (X & _). exact (L bt c' rest X Id).
Qed.
Lemma last_state h id c : last_returned returned h id c -> exists s, GetState (act_run (do_call dvalue_eqb) h []) id = Some s /\ s_state s = c_state c.
Proof.
  intros (bf & af & -> & I & R & L). induction af as [|c' af IH] using rev_ind.
  - rewrite act_run_app. cbn [act_run]. pose proof (do_call_spec dvalue_eqb c (act_run (do_call dvalue_eqb) bf [])) as S. unfold returned in R.
    destruct (do_call dvalue_eqb c (act_run (do_call dvalue_eqb) bf [])) as [m' ok]. cbn [fst snd] in *. destruct S as (_ & F & _). rewrite F, R, I, Nat.eqb_refl. eexists. split; reflexivity.
  - assert (L' : forall between c'' rest, af = between ++ c'' :: rest -> c_id c'' = id -> returned (bf ++ c :: between) c'' = false).
    { intros bt c'' rest E Id. apply (L bt c'' (rest ++ [c'])); [rewrite E, <- app_assoc; reflexivity|exact Id]. }
    destruct (IH L') as (s & G & St). exists s. split; [|exact St].
    replace (bf ++ c :: af ++ [c']) with ((bf ++ c :: af) ++ [c']) by (rewrite <- app_assoc; reflexivity).
    rewrite act_run_app. cbn [act_run]. pose proof (do_call_spec dvalue_eqb c' (act_run (do_call dvalue_eqb) (bf ++ c :: af) [])) as S.
    pose proof (L af c' [] eq_refl) as Lc. unfold returned in Lc.
    destruct (do_call dvalue_eqb c' (act_run (do_call dvalue_eqb) (bf ++ c :: af) [])) as [m' ok]. cbn [fst snd] in *. destruct S as (_ & F & _). rewrite F.
    destruct ok; [|exact G]. destruct (Nat.eqb (c_id c') id) eqn:B; [|exact G]. apply Nat.eqb_eq in B. specialize (Lc B). discriminate.
Qed.

(** The characters of a text. *)
Notation "'key' s" := (map nat_of_ascii (list_ascii_of_string s%string)) (at level 9, only parsing).
(** The current yield group of a right of way rule is that of the state set last, after any history of calls of
    SetState; the tool throws for another type of rule, for a rule whose state was never set, and when that state has
    no yield group. *)
Theorem current_yield_group : forall row h id ty,
  let m := act_run (do_call dvalue_eqb) h [] in
  (forall g, GetCurrentYieldGroup row id ty (Some m) = Ok g <->
     ty = row /\ exists c, last_returned returned h id c /\ group_of (key "Yield Group") (related_rules (dv_state (c_state c))) g) /\
  (forall g, GetCurrentBulbGroup row id ty (Some m) = Ok g <->
     ty = row /\ exists c, last_returned returned h id c /\ group_of (key "Bulb Group") (related_ids (dv_state (c_state c))) g) /\
  GetCurrentYieldGroup row id ty (Some m) <> UB /\ GetCurrentBulbGroup row id ty (Some m) <> UB /\
  GetCurrentYieldGroup row id ty None = Throw /\ GetCurrentBulbGroup row id ty None = Throw.
Proof.
  intros row h id ty m. change (key "Yield Group") with yield_key. change (key "Bulb Group") with bulb_key. unfold GetCurrentYieldGroup, GetCurrentBulbGroup, GetCurrentStateValue, throw_unless, GetYieldGroup, GetBulbGroup.
  pose proof (state_last h id) as A. fold m in A.
  assert (B : forall c, last_returned returned h id c -> exists s, GetState m id = Some s /\ s_state s = c_state c) by (intros c X; exact (last_state h id c X)).
  destruct (Nat.eqb ty row) eqn:T; [apply Nat.eqb_eq in T|apply Nat.eqb_neq in T].
  - destruct (GetState m id) as [s|] eqn:G; cbn [obind].
    + destruct (A s eq_refl) as (c & L & St).
      assert (Same : forall c', last_returned returned h id c' -> c_state c' = s_state s) by (intros c' L'; destruct (B c' L') as (s' & E & St'); congruence).
      split; [|split; [|split; [|split; [|split; reflexivity]]]].
      * intro g. split.
        -- intro H. split; [exact T|]. exists c. split; [exact L|]. rewrite <- St. apply find_group_of. destruct (find_group yield_key (related_rules (dv_state (s_state s)))); congruence.
        -- intros (_ & c' & L' & H). apply find_group_of in H. rewrite (Same c' L') in H. rewrite H. reflexivity.
      * intro g. split.
        -- intro H. split; [exact T|]. exists c. split; [exact L|]. rewrite <- St. apply find_group_of. destruct (find_group bulb_key (related_ids (dv_state (s_state s)))); congruence.
        -- intros (_ & c' & L' & H). apply find_group_of in H. rewrite (Same c' L') in H. rewrite H. reflexivity.
      * destruct (find_group yield_key (related_rules (dv_state (s_state s)))); discriminate.
      * destruct (find_group bulb_key (related_ids (dv_state (s_state s)))); discriminate.
    + split; [|split; [|split; [|split; [|split; reflexivity]]]]; try discriminate;
        intro g; (split; [discriminate|]); intros (_ & c & L & _); destruct (B c L) as (s & X & _); congruence.
  - cbn [obind]. split; [|split; [|split; [|split; [|split; reflexivity]]]]; try discriminate;
      intro g; (split; [discriminate|]); intros (X & _); contradiction.
Qed.
Print Assumptions current_yield_group.

(** Finding: the current yield group need not be the yield group of any state of the rule; SetState accepts a state
    with more rules in it.  Here the rule yields to 5 only, and the current yield group is 5 and 6. *)
Theorem current_yield_group_of_rule_refuted :
  exists row (c : set_call dvalue) r g,
    c_book c = [(c_id c, r)] /\ DiscreteValueRule (sr_states r) = Ok (sr_states r) /\ returned [] c = true /\
    GetCurrentYieldGroup row (c_id c) row (Some (act_run (do_call dvalue_eqb) [c] [])) = Ok g /\
    forall x, In x (sr_states r) -> GetYieldGroup x <> Ok g.
Proof.
  pose (v l := mk_dvalue (mk_rstate 0%Z [(key "Yield Group", l)] []) [7]).
  exists 3, (mk_call [(2, mk_srule 3 [] [v [5]])] 2 (v [5; 6]) None None), (mk_srule 3 [] [v [5]]), [5; 6].
  split; [reflexivity|]. split; [reflexivity|]. split; [reflexivity|]. split; [reflexivity|].
  intros x [<-|[]]. discriminate.
Qed.
Print Assumptions current_yield_group_of_rule_refuted.

(** What holds instead: the current groups have all the ids of the groups of one state of the rule, with the value
    of the state set. *)
Theorem current_yield_group_extends_rule : forall row h id c g,
  let m := act_run (do_call dvalue_eqb) h [] in
  last_returned returned h id c -> NoDup (map fst (c_book c)) ->
  (forall r, In (c_id c, r) (c_book c) -> forall x, In x (sr_states r) -> map_state (dv_state x)) ->
  map_state (dv_state (c_state c)) -> (forall n, c_next c = Some n -> map_state (dv_state n)) ->
  exists r x, In (id, r) (c_book c) /\ In x (sr_states r) /\ dv_value x = dv_value (c_state c) /\
    (GetCurrentYieldGroup row id row (Some m) = Ok g -> exists l, In (key "Yield Group", l) (related_rules (dv_state x)) /\ incl l g) /\
    (GetCurrentBulbGroup row id row (Some m) = Ok g -> exists l, In (key "Bulb Group", l) (related_ids (dv_state x)) /\ incl l g).
Proof.
  intros row h id c g m L N M Mc Mn. pose proof L as (bf & af & _ & Id & R & _).
  pose proof (proj1 (discrete_state_accepted c (act_run (do_call dvalue_eqb) bf []) M N Mc Mn) R) as (r & Hr & (x & Hx & V & (_ & S1 & S2)) & _).
  exists r, x. rewrite <- Id at 1. split; [exact Hr|]. split; [exact Hx|]. split; [exact V|].
  destruct (current_yield_group row h id row) as (Y & B & _). fold m in Y, B.
  assert (Same : forall c', last_returned returned h id c' -> c_state c' = c_state c).
  { intros c' L'. destruct (last_state h id c L) as (s & E & St), (last_state h id c' L') as (s' & E' & St'). congruence. }
  assert (K : forall k a b, sub_groups a b -> group_of k b g -> exists l, In (k, l) a /\ incl l g).
  { intros k a b (Ks & Vs) (i & G & _). apply nth_error_In in G. assert (I : In k (map fst a)) by (apply Ks, in_map_iff; exists (k, g); auto).
    apply in_map_iff in I as ((k', l) & E & I). cbn in E. subst k'. exists l. split; [exact I|]. intros y Hy. exact (Vs k l g I G y Hy). }
  split; intro H.
  - apply Y in H as (_ & c' & L' & G). rewrite (Same c' L') in G. exact (K _ _ _ S1 G).
  - apply B in H as (_ & c' & L' & G). rewrite (Same c' L') in G. exact (K _ _ _ S2 G).
Qed.
Print Assumptions current_yield_group_extends_rule.

(** A rule with two states; the second call is refused, the third is for another rule. *)
Example current_yield_group_example :
  let v n l := mk_dvalue (mk_rstate 0%Z [(key "Yield Group", l)] [(key "Bulb Group", [n])]) [n] in
  let b := [(2, mk_srule 3 [] [v 7 [5]; v 8 []]); (4, mk_srule 3 [] [v 8 [6]])] in
  let h := [mk_call b 2 (v 7 [5]) None None; mk_call b 2 (v 9 []) None None; mk_call b 4 (v 8 [6]) None None] in
  let m := act_run (do_call dvalue_eqb) h [] in
  last_returned returned h 2 (mk_call b 2 (v 7 [5]) None None) /\ map_state (dv_state (v 7 [5])) /\
  GetCurrentYieldGroup 3 2 3 (Some m) = Ok [5] /\ GetCurrentBulbGroup 3 2 3 (Some m) = Ok [7] /\
  GetCurrentYieldGroup 3 2 9 (Some m) = Throw /\ GetCurrentYieldGroup 3 6 3 (Some m) = Throw.
Proof.
  cbv zeta. split.
  - exists []. eexists. split; [reflexivity|]. split; [reflexivity|]. split; [reflexivity|].
    intros [|? [|? [|? ?]]] c' rest E I; inversion E; subst; try discriminate; reflexivity.
  - split; [|repeat split]. split; cbn; repeat constructor; intros [].
Qed.
