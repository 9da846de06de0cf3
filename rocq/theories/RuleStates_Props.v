(** C29, C30, C31, C32, C33: rule states, their comparison, registries, filters and
    manual state providers. *)
From Coq Require Import List ZArith QArith Bool Arith Lia Permutation.
From Coq Require Import Floats.SpecFloat.
From Verif Require Import Base Maps Regions_Model Regions_Spec Scalar_Spec Scalar_Props Hierarchy_Proofs
  RuleStates_Model RuleStates_Spec RuleStates_Proofs.
Import ListNotations.
Local Open Scope nat_scope.

(** ** C30 *)
(** operator== holds exactly when the severities agree, the groups are the same and
    the ids of each group on the left are among those on the right. *)
Theorem rule_state_eq_iff a b : map_state a -> map_state b -> (state_eqb a b = true <-> sub_state a b).
Proof. exact (state_eqb_sub a b). Qed.
Print Assumptions rule_state_eq_iff.

Theorem rule_state_eq_reflexive a : map_state a -> state_eqb a a = true.
Proof. exact (state_eqb_refl a). Qed.
Print Assumptions rule_state_eq_reflexive.

Theorem rule_state_eq_transitive a b c : map_state a -> map_state b -> map_state c ->
  state_eqb a b = true -> state_eqb b c = true -> state_eqb a c = true.
Proof. intros A B C. rewrite !state_eqb_sub by assumption. apply sub_state_trans. Qed.
Print Assumptions rule_state_eq_transitive.

(** Both directions together are equality of contents. *)
Theorem rule_state_eq_both_ways a b : map_state a -> map_state b ->
  (state_eqb a b = true /\ state_eqb b a = true <-> same_state a b).
Proof.
  intros A B. rewrite !state_eqb_sub by assumption. split; [intros [H1 H2]; apply sub_state_same; auto|apply same_state_sub].
Qed.
Print Assumptions rule_state_eq_both_ways.

(** Symmetric (and equal to equality of contents) when common groups have equally
    many, distinct ids.  Missing: states whose groups differ in size, for which
    it is refuted. *)
Theorem rule_state_eq_symmetric_partial a b : map_state a -> map_state b -> same_sizes_state a b ->
  (state_eqb a b = true <-> same_state a b) /\ state_eqb a b = state_eqb b a.
Proof.
  intros A B S.
  assert (S' : same_sizes_state b a).
  { destruct S as [S1 S2]. split; intros k v w Hv Hw; [destruct (S1 k w v Hw Hv) as (X & Y & Z)|destruct (S2 k w v Hw Hv) as (X & Y & Z)]; auto. }
  assert (H : forall x y, map_state x -> map_state y -> same_sizes_state x y -> (state_eqb x y = true <-> same_state x y)).
  { intros x y X Y Sxy. rewrite state_eqb_sub by assumption. split; [apply sub_state_sizes; auto|]. intro K. apply same_state_sub in K. tauto. }
  assert (Sym : forall x y, same_state x y -> same_state y x).
  { intros x y K. apply same_state_sub in K. apply sub_state_same; tauto. }
  split; [apply H; auto|]. apply eq_true_iff_eq. rewrite (H a b), (H b a) by assumption. split; apply Sym.
Qed.
Print Assumptions rule_state_eq_symmetric_partial.

(** Finding: == is not symmetric, already for rule states that pass validation. *)
Theorem rule_state_eq_symmetric_refuted :
  exists a b, good_state a /\ good_state b /\ map_state a /\ map_state b /\ state_eqb a b = true /\ state_eqb b a = false.
Proof.
  exists (mk_rstate 0 [([1], [5])] []), (mk_rstate 0 [([1], [5; 6])] []).
  assert (G : forall l, NoDup l -> good_state (mk_rstate 0 [([1], l)] [])).
  { intros l N. split; [|split; [|cbn; lia]]; intros k v H; cbn in H; [|destruct H].
    destruct H as [H|[]]. inversion H; subst. split; [discriminate|exact N]. }
  assert (M : forall l, map_state (mk_rstate 0 [([1], l)] [])) by (intro l; split; cbn; repeat constructor; intros []).
  split; [apply G; repeat constructor; intros []|]. split.
  { apply G. constructor; [cbn; intuition discriminate|repeat constructor; intros []]. }
  split; [apply M|]. split; [apply M|]. split; reflexivity.
Qed.
Print Assumptions rule_state_eq_symmetric_refuted.

(** Still, the duplicate detection of the rule constructors does not depend on the
    order of the states. *)
Theorem rule_constructors_order_free :
  (forall l l', Permutation l l' -> is_ok (DiscreteValueRule l) = is_ok (DiscreteValueRule l')) /\
  (forall l l', Permutation l l' -> is_ok (RangeValueRule l) = is_ok (RangeValueRule l')).
Proof. split; [exact discrete_rule_perm|exact range_rule_perm]. Qed.
Print Assumptions rule_constructors_order_free.

(** What the constructors accept. *)
Theorem discrete_rule_constructor vs : (forall v, In v vs -> map_state (dv_state v)) ->
  (DiscreteValueRule vs = Ok vs <->
   vs <> [] /\ (forall v, In v vs -> good_state (dv_state v)) /\
   pairwise_apart (fun a b => dv_value a = dv_value b /\ sub_state (dv_state a) (dv_state b)) vs) /\
  (DiscreteValueRule vs <> Ok vs -> DiscreteValueRule vs = Throw).
Proof. intro M. destruct (discrete_rule_ok vs M) as [H1 H2]. split; [exact H1|tauto]. Qed.
Print Assumptions discrete_rule_constructor.

Theorem range_rule_constructor vs : (forall v, In v vs -> map_state (rv_state v) /\ is_double (rv_min v) /\ is_double (rv_max v)) ->
  (RangeValueRule vs = Ok vs <->
   vs <> [] /\ (forall v, In v vs -> good_state (rv_state v) /\ le_double (rv_min v) (rv_max v)) /\
   pairwise_apart (fun a b => le_double (rv_min a) (rv_min b) /\ le_double (rv_min b) (rv_min a) /\
     le_double (rv_max a) (rv_max b) /\ le_double (rv_max b) (rv_max a) /\
     rv_desc a = rv_desc b /\ sub_state (rv_state a) (rv_state b)) vs) /\
  (RangeValueRule vs <> Ok vs -> RangeValueRule vs = Throw).
Proof. intro M. destruct (range_rule_ok vs M) as [H1 H2]. split; [exact H1|tauto]. Qed.
Print Assumptions range_rule_constructor.

Definition st0 : rstate := mk_rstate 0 [([1], [5])] [].
Definition st1 : rstate := mk_rstate 0 [([1], [5; 6])] [].
Definition st2 : rstate := mk_rstate 3 [] [([2], [9])].
Example rule_constructor_example :
  DiscreteValueRule [mk_dvalue st0 [7]; mk_dvalue st2 [7]; mk_dvalue st1 [8]] = Ok [mk_dvalue st0 [7]; mk_dvalue st2 [7]; mk_dvalue st1 [8]] /\
  DiscreteValueRule [mk_dvalue st0 [7]; mk_dvalue st1 [7]] = Throw /\
  DiscreteValueRule [mk_dvalue st1 [7]; mk_dvalue st0 [7]] = Throw /\
  RangeValueRule [mk_range st0 [1] d1_5 d2; mk_range st0 [1] d2 d2] = Ok [mk_range st0 [1] d1_5 d2; mk_range st0 [1] d2 d2] /\
  RangeValueRule [mk_range st0 [1] d2 d1_5] = Throw.
Proof. repeat split. Qed.

(** ** C31 *)
Theorem range_less_strict_weak_order : strict_weak_order range_number range_ltb.
Proof. exact range_ltb_swo. Qed.
Print Assumptions range_less_strict_weak_order.

(** It is the documented order: severity, description, min, max. *)
Theorem range_less_iff a b : range_number a -> range_number b -> (range_ltb a b = true <-> range_before a b).
Proof. exact (range_ltb_before a b). Qed.
Print Assumptions range_less_iff.

(** Finding: with a NaN bound incomparability is not transitive. *)
Theorem range_less_nan_refuted :
  exists a b c, range_ltb a b = false /\ range_ltb b a = false /\ range_ltb b c = false /\ range_ltb c b = false /\ range_ltb a c = true.
Proof. exists (mk_range st0 [1] d1_5 d2), (mk_range st0 [1] S754_nan d2), (mk_range st0 [1] d2 d2). repeat split. Qed.
Print Assumptions range_less_nan_refuted.

Example range_less_example :
  range_number (mk_range st0 [1] d1_5 d2) /\
  range_ltb (mk_range st0 [1] d1_5 d2) (mk_range st2 [] d1_5 d1_5) = true /\
  range_ltb (mk_range st0 [1] d1_5 d2) (mk_range st1 [1; 0] d1_5 d1_5) = true /\
  range_ltb (mk_range st0 [1] d1_5 d2) (mk_range st1 [1] d1_5 (S754_infinity false)) = true /\
  range_ltb (mk_range st0 [1] d1_5 d2) (mk_range st1 [1] d1_5 d2) = false.
Proof. repeat split; discriminate. Qed.

(** ** C32 *)
Definition registered (h : list gop) : registry := act_run gstep h reg_empty.

(** One registration: when it returns and what it changes. *)
Theorem registry_register o h :
  (match o with
   | RegR _ rs => forall v, In v rs -> map_state (rv_state v) /\ is_double (rv_min v) /\ is_double (rv_max v)
   | RegD _ vs => forall v, In v vs -> map_state (dv_state v)
   end) ->
  (snd (gstep o (registered h)) = true <->
     GetPossibleStates (registered h) (gop_type o) = None /\
     match o with
     | RegR _ rs => rs <> [] /\ (forall v, In v rs -> range_number v) /\
         pairwise_apart (fun a b => le_double (rv_min a) (rv_min b) /\ le_double (rv_min b) (rv_min a) /\
           le_double (rv_max a) (rv_max b) /\ le_double (rv_max b) (rv_max a) /\
           rv_desc a = rv_desc b /\ sub_state (rv_state a) (rv_state b)) rs
     | RegD _ vs => vs <> [] /\ pairwise_apart (fun a b => dv_value a = dv_value b /\ sub_state (dv_state a) (dv_state b)) vs
     end) /\
  (snd (gstep o (registered h)) = true -> forall ty, GetPossibleStates (fst (gstep o (registered h))) ty =
     if Nat.eqb ty (gop_type o) then Some (gop_states o) else GetPossibleStates (registered h) ty) /\
  (snd (gstep o (registered h)) = false -> fst (gstep o (registered h)) = registered h).
Proof.
  intro M. pose proof (gstep_spec o (registered h)) as S. destruct (gstep o (registered h)) as [g' ok]. cbn [fst snd].
  destruct S as (S1 & S2 & S3). split; [|split; auto]. rewrite S1. destruct o as [t rs|t vs].
  - rewrite (range_dups rs M). reflexivity.
  - rewrite (discrete_dups vs M). reflexivity.
Qed.
Print Assumptions registry_register.

(** A type's states are those of the one registration of it that returned. *)
Theorem registry_possible_states h ty s :
  GetPossibleStates (registered h) ty = Some s <->
  exists h1 o h2, h = h1 ++ o :: h2 /\ gop_type o = ty /\ gop_states o = s /\ snd (gstep o (registered h1)) = true.
Proof.
  unfold registered. rewrite registry_history. split; [intros [H|H]; [discriminate|auto]|auto].
Qed.
Print Assumptions registry_possible_states.

Theorem registry_once h1 o1 t1 h2 o2 t2 :
  h1 ++ o1 :: t1 = h2 ++ o2 :: t2 -> gop_type o1 = gop_type o2 ->
  snd (gstep o1 (registered h1)) = true -> snd (gstep o2 (registered h2)) = true -> h1 = h2.
Proof.
  intros E T R1 R2.
  assert (W : forall h o h' o', gop_type o = gop_type o' -> snd (gstep o (registered h)) = true ->
            snd (gstep o' (registered h')) = true -> forall x, h' = h ++ o :: x -> False).
  { intros h o h' o' Et Ra Rb x ->. pose proof (gstep_spec o' (registered (h ++ o :: x))) as S.
    destruct (gstep o' (registered (h ++ o :: x))) as [g' ok]. cbn in Rb. destruct S as (S & _). apply S in Rb. destruct Rb as [N _].
    assert (Y : GetPossibleStates (registered (h ++ o :: x)) (gop_type o') = Some (gop_states o)).
    { apply registry_possible_states. exists h, o, x. rewrite Et. auto. }
    congruence. }
  destruct (split_cases h1 h2 o1 o2 t1 t2 E) as [X|[(x & X)|(x & X)]]; auto; exfalso.
  - exact (W h1 o1 h2 o2 T R1 R2 _ X).
  - exact (W h2 o2 h1 o1 (eq_sym T) R2 R1 _ X).
Qed.
Print Assumptions registry_once.

(** Building succeeds exactly for a type registered as that kind, states whose
    severity and value (bounds and description) are registered, and a list the rule
    constructor accepts; the rule has the given states. *)
Theorem registry_build_discrete h ty vs r :
  BuildDiscrete (registered h) ty vs = Ok r <->
  r = vs /\ DiscreteValueRule vs = Ok vs /\
  exists all, GetPossibleStates (registered h) ty = Some (inr all) /\
    forall v, In v vs -> exists d, In d all /\ severity (dv_state d) = severity (dv_state v) /\ dv_value d = dv_value v.
Proof.
  pose proof (one_kind_run h) as I. fold (registered h) in I. unfold BuildDiscrete.
  assert (C : DiscreteValueRule vs = Ok vs \/ DiscreteValueRule vs = Throw).
  { unfold DiscreteValueRule, throw_unless. destruct (negb _); auto. destruct (forallb _ vs); auto. }
  destruct (mfind Nat.eqb ty (reg_values (registered h))) as [all|] eqn:F.
  - pose proof (proj2 (kind_values _ ty all I) F) as G. unfold throw_unless. destruct (forallb (HasDiscrete all) vs) eqn:E.
    + rewrite forallb_forall in E. split.
      * intro H. assert (r = vs) by (destruct C as [C|C]; congruence). subst r. split; auto. split; auto.
        exists all. split; auto. intros v Hv. apply has_discrete_iff; auto.
      * intros (-> & H & _). exact H.
    + split; [discriminate|]. intros (_ & _ & all' & H & K). exfalso. assert (all' = all) by congruence. subst all'.
      apply not_true_iff_false in E. apply E. apply forallb_forall. intros v Hv. apply has_discrete_iff; auto.
  - split; [discriminate|]. intros (_ & _ & all' & H & _). apply (kind_values _ ty all' I) in H. congruence.
Qed.
Print Assumptions registry_build_discrete.

Theorem registry_build_range h ty rs r :
  (forall o v, In o h -> match o with RegR _ l => In v l | RegD _ _ => False end -> is_double (rv_min v) /\ is_double (rv_max v)) ->
  (forall v, In v rs -> is_double (rv_min v) /\ is_double (rv_max v)) ->
  (BuildRange (registered h) ty rs = Ok r <->
  r = rs /\ RangeValueRule rs = Ok rs /\
  exists all, GetPossibleStates (registered h) ty = Some (inl all) /\
    forall v, In v rs -> exists d, In d all /\ severity (rv_state d) = severity (rv_state v) /\ rv_desc d = rv_desc v /\
      le_double (rv_min d) (rv_min v) /\ le_double (rv_min v) (rv_min d) /\ le_double (rv_max d) (rv_max v) /\ le_double (rv_max v) (rv_max d)).
Proof.
  intros Dh Dr. unfold BuildRange.
  assert (C : RangeValueRule rs = Ok rs \/ RangeValueRule rs = Throw).
  { unfold RangeValueRule, throw_unless. destruct (negb _); auto. destruct (forallb _ rs); auto. }
  destruct (mfind Nat.eqb ty (reg_ranges (registered h))) as [all|] eqn:F.
  - pose proof (proj2 (kind_ranges _ ty all) F) as G.
    assert (Da : forall d, In d all -> range_doubles d).
    { apply registry_possible_states in G. destruct G as (h1 & o & h2 & -> & _ & Ho & _). intros d Hd.
      destruct o as [t l|t l]; cbn in Ho; [|discriminate]. inversion Ho; subst l.
      apply (Dh (RegR t all) d); [apply in_or_app; right; left; auto|exact Hd]. }
    unfold throw_unless. destruct (forallb (HasRange all) rs) eqn:E.
    + rewrite forallb_forall in E. split.
      * intro H. assert (r = rs) by (destruct C as [C|C]; congruence). subst r. split; auto. split; auto.
        exists all. split; auto. intros v Hv. destruct (Dr v Hv). apply has_range_iff; auto.
      * intros (-> & H & _). exact H.
    + split; [discriminate|]. intros (_ & _ & all' & H & K). exfalso. assert (all' = all) by congruence. subst all'.
      apply not_true_iff_false in E. apply E. apply forallb_forall. intros v Hv. destruct (Dr v Hv). apply has_range_iff; auto.
  - split; [discriminate|]. intros (_ & _ & all' & H & _). apply kind_ranges in H. congruence.
Qed.
Print Assumptions registry_build_range.

Definition gh : list gop :=
  [RegD 1 [mk_dvalue st0 [7]; mk_dvalue st2 [7]]; RegR 1 [mk_range st0 [1] d1_5 d2]; RegR 2 [mk_range st0 [1] d1_5 d2]].
Example registry_example :
  GetPossibleStates (registered gh) 1 = Some (inr [mk_dvalue st0 [7]; mk_dvalue st2 [7]]) /\
  GetPossibleStates (registered gh) 2 = Some (inl [mk_range st0 [1] d1_5 d2]) /\
  BuildDiscrete (registered gh) 1 [mk_dvalue st1 [7]] = Ok [mk_dvalue st1 [7]] /\
  BuildDiscrete (registered gh) 1 [mk_dvalue st1 [8]] = Throw /\
  BuildDiscrete (registered gh) 2 [mk_dvalue st1 [7]] = Throw /\
  BuildRange (registered gh) 2 [mk_range st1 [1] d1_5 d2] = Ok [mk_range st1 [1] d1_5 d2].
Proof. repeat split. Qed.

(** ** C33 *)
Theorem filter_rules_conjunction {D R} (q : query D R) fd fr :
  (forall id r, In (id, r) (q_discrete (FilterRules q fd fr)) <-> In (id, r) (q_discrete q) /\ forall f, In f fd -> f r = true) /\
  (forall id r, In (id, r) (q_range (FilterRules q fd fr)) <-> In (id, r) (q_range q) /\ forall f, In f fr -> f r = true) /\
  sublist (q_discrete (FilterRules q fd fr)) (q_discrete q) /\ sublist (q_range (FilterRules q fd fr)) (q_range q).
Proof.
  split; [|split; [|split]].
  - intros id r. apply (filter_all_iff fd (q_discrete q) (id, r)).
  - intros id r. apply (filter_all_iff fr (q_range q) (id, r)).
  - apply filter_all_sublist.
  - apply filter_all_sublist.
Qed.
Print Assumptions filter_rules_conjunction.

Theorem filter_rules_empty {D R} (q : query D R) : FilterRules q [] [] = q.
Proof. destruct q. reflexivity. Qed.
Print Assumptions filter_rules_empty.

Example filter_rules_example :
  FilterRules (mk_query [(1, 10); (2, 13); (3, 14)] [(1, 5)]) [Nat.even; Nat.ltb 11] [] = mk_query [(3, 14)] [(1, 5)].
Proof. reflexivity. Qed.

(** ** C29 *)
(** Accepted discrete states: some state of the rule with the same value and
    severity, the same groups, and ids of each group among those of the given one. *)
Theorem discrete_state_accepted c m :
  (forall r, In (c_id c, r) (c_book c) -> forall x, In x (sr_states r) -> map_state (dv_state x)) ->
  NoDup (map fst (c_book c)) -> map_state (dv_state (c_state c)) -> (forall n, c_next c = Some n -> map_state (dv_state n)) ->
  (snd (do_call dvalue_eqb c m) = true <->
   exists r, In (c_id c, r) (c_book c) /\
     (exists x, In x (sr_states r) /\ dv_value x = dv_value (c_state c) /\ sub_state (dv_state x) (dv_state (c_state c))) /\
     match c_next c with
     | Some n => (exists x, In x (sr_states r) /\ dv_value x = dv_value n /\ sub_state (dv_state x) (dv_state n)) /\
                 (forall d, c_dur c = Some d -> (0 < d)%Q)
     | None => c_dur c = None
     end).
Proof.
  intros M N Ms Mn. pose proof (do_call_spec dvalue_eqb c m) as S. destruct (do_call dvalue_eqb c m) as [m' ok]. cbn [snd].
  destruct S as (S & _). rewrite S. unfold call_ok.
  assert (X : forall r s, In (c_id c, r) (c_book c) -> map_state (dv_state s) ->
     ((exists x, In x (sr_states r) /\ dvalue_eqb x s = true) <-> exists x, In x (sr_states r) /\ dv_value x = dv_value s /\ sub_state (dv_state x) (dv_state s))).
  { intros r s Hr Hs. split; intros (x & Hx & E); exists x; split; auto; apply dvalue_eqb_sub; auto; eapply M; eauto. }
  split; intros (r & F & H1 & H2); exists r.
  - apply (mfind_in Nat.eqb nat_eqb_ok) in F. split; auto. split; [apply X; auto|].
    destruct (c_next c) as [n|]; auto. destruct H2. split; auto. apply X; auto.
  - split; [apply (mfind_nodup Nat.eqb nat_eqb_ok); auto|]. split; [apply X; auto|].
    destruct (c_next c) as [n|]; auto. destruct H2. split; auto. apply X; auto.
Qed.
Print Assumptions discrete_state_accepted.

(** One call, discrete or range: a failed call leaves the provider unchanged, a
    returned one changes the one rule to what was given. *)
Theorem manual_provider_step {A} (eqb : A -> A -> bool) c m :
  (forall id, GetState (fst (do_call eqb c m)) id =
     if snd (do_call eqb c m) && Nat.eqb (c_id c) id
     then Some (mk_sresult (c_state c) (match c_next c with Some n => Some (n, c_dur c) | None => None end)) else GetState m id) /\
  (snd (do_call eqb c m) = false -> fst (do_call eqb c m) = m).
Proof. pose proof (do_call_spec eqb c m) as S. destruct (do_call eqb c m) as [m' ok]. cbn [fst snd]. tauto. Qed.
Print Assumptions manual_provider_step.

(** GetState returns the state last set by a returned call, for any history. *)
Theorem manual_provider_last_set {A} (eqb : A -> A -> bool) h id :
  GetState (act_run (do_call eqb) h []) id = last_set id (ctrace eqb h []) None.
Proof. exact (last_set_run eqb h [] id). Qed.
Print Assumptions manual_provider_last_set.

(** Whatever GetState returns was accepted against the rulebook of its call: the
    state and next state compare equal to states of the rule, a duration comes with
    a next state and is positive. *)
Theorem manual_provider_valid {A} (eqb : A -> A -> bool) h id s :
  GetState (act_run (do_call eqb) h []) id = Some s ->
  exists c r, In c h /\ c_id c = id /\ mfind Nat.eqb id (c_book c) = Some r /\
    (exists x, In x (sr_states r) /\ eqb x (s_state s) = true) /\
    (forall n d, s_next s = Some (n, d) -> (exists x, In x (sr_states r) /\ eqb x n = true) /\ forall q, d = Some q -> (0 < q)%Q).
Proof.
  intro H. rewrite (last_set_run eqb h [] id) in H. destruct (last_set_from eqb h [] id (GetState [] id)) as [E|(c & Hc & Ok & Id & E)].
  - rewrite E in H. discriminate.
  - rewrite E in H. inversion H; subst s. destruct Ok as (r & F & O1 & O2). exists c, r. rewrite Id in F.
    split; auto. split; auto. split; auto. cbn [s_state s_next]. split; auto. intros n d Hn.
    destruct (c_next c) as [n'|]; inversion Hn; subst. exact O2.
Qed.
Print Assumptions manual_provider_valid.

(** Finding: "returned states are among the rule's states" is false: std::find
    compares rule_state == given_state, which is not symmetric, so a state with
    additional related rules is accepted and then returned. *)
Theorem manual_provider_state_refuted :
  exists (c : set_call dvalue) r s, In (c_id c, r) (c_book c) /\ DiscreteValueRule (sr_states r) = Ok (sr_states r) /\
    GetState (act_run (do_call dvalue_eqb) [c] []) (c_id c) = Some s /\
    forall x, In x (sr_states r) -> ~ same_state (dv_state x) (dv_state (s_state s)).
Proof.
  set (r := mk_srule 0 [] [mk_dvalue st0 [7]]).
  exists (mk_call [(4, r)] 4 (mk_dvalue st1 [7]) None None), r. eexists.
  split; [left; reflexivity|]. split; [reflexivity|]. split; [reflexivity|].
  intros x [<-|[]]. intros (_ & [_ H] & _). cbn in H.
  assert (In 6 [5]) by (apply (H [1] [5] [5; 6]); auto; cbn; auto). cbn in H0. intuition discriminate.
Qed.
Print Assumptions manual_provider_state_refuted.

(** Query by position: the state of the first rule (in id order) of the type whose
    zone is within the tolerance of the position; nothing when there is none; a throw
    when that rule has no state or the tolerance is negative. *)
Theorem manual_provider_at_position {A} (b : sbook A) m lane s tol ty :
  (forall id r, In (id, r) b -> Forall lvalid (sr_zone r)) -> (0 <= s)%Q ->
  ((tol < 0)%Q -> GetStateAt b m lane s tol ty = Throw) /\
  ((0 <= tol)%Q ->
     exists rs, sublist rs b /\
       (forall id r, In (id, r) rs <-> In (id, r) b /\ sr_type r = ty /\ rnear tol (sr_zone r) [mk_lsrange lane (mk_srange s s)]) /\
       GetStateAt b m lane s tol ty =
         match rs with
         | [] => Ok None
         | (id, _) :: _ => match GetState m id with Some v => Ok (Some v) | None => Throw end
         end).
Proof.
  intros Z S. unfold GetStateAt, filtered_rules. split.
  - intro T. unfold throw_unless. destruct (Qleb_spec 0 tol) as [L|L]; [exfalso; exact (Qlt_not_le _ _ T L)|reflexivity].
  - intro T. unfold throw_unless. destruct (Qleb_spec 0 tol) as [_|L]; [|exfalso; exact (Qlt_not_le _ _ L T)].
    set (b1 := FilterMap (fun r => Nat.eqb (sr_type r) ty) b).
    assert (B1 : forall id r, In (id, r) b1 <-> In (id, r) b /\ sr_type r = ty).
    { intros id r. unfold b1, FilterMap. rewrite filter_In. cbn [snd]. rewrite Nat.eqb_eq. reflexivity. }
    assert (S1 : sublist b1 b) by apply filter_sublist.
    set (p := mk_lsrange lane (mk_srange s s)).
    assert (Vp : lvalid p) by (split; exact S).
    destruct (zone_filter_ok p tol b1 Vp T) as (rs & E & R1 & R2).
    { intros id r H. apply B1 in H. apply (Z id r). tauto. }
    exists rs. split; [eapply sublist_trans; eauto|]. split.
    + intros id r. rewrite R1, B1. tauto.
    + assert (K : match b1 with [] => Ok [] | _ => obind (SRange s s) (fun r => zone_filter [mk_lsrange lane r] tol b1) end = Ok rs).
      { destruct b1 as [|e b2]; [cbn in E; congruence|]. unfold SRange, throw_unless.
        destruct (Qleb_spec 0 s) as [_|L]; [|exfalso; exact (Qlt_not_le _ _ L S)]. cbn [andb obind]. exact E. }
      destruct b1 as [|e b2]; [inversion K; reflexivity|]. rewrite K. reflexivity.
Qed.
Print Assumptions manual_provider_at_position.

(** Default population gives every rule its first state. *)
Theorem manual_provider_default {A} (eqb : A -> A -> bool) (b : sbook A) :
  NoDup (map fst b) -> (forall id r, In (id, r) b -> exists x l, sr_states r = x :: l /\ eqb x x = true) ->
  exists m, populate eqb b b [] = Ok m /\
    (forall id r x l, In (id, r) b -> sr_states r = x :: l -> GetState m id = Some (mk_sresult x None)) /\
    (forall id, ~ In id (map fst b) -> GetState m id = None).
Proof.
  intros N F.
  assert (G : forall rs m, incl rs b -> NoDup (map fst rs) ->
    exists m', populate eqb b rs m = Ok m' /\
      (forall id r x l, In (id, r) rs -> sr_states r = x :: l -> GetState m' id = Some (mk_sresult x None)) /\
      (forall id, ~ In id (map fst rs) -> GetState m' id = GetState m id)).
  { induction rs as [|[id r] rs IH]; intros m I Nr; cbn [populate].
    - exists m. split; auto. split; auto. intros id r x l [].
    - destruct (F id r) as (x & l & E & R); [apply I; left; auto|]. rewrite E.
      pose proof (do_call_spec eqb (mk_call b id x None None) m) as S. unfold do_call in S. cbn [c_book c_id c_state c_next c_dur] in S.
      destruct (SetState eqb b id x None None m) as [m1 ok]. destruct S as (S1 & S2 & _).
      assert (ok = true) as ->.
      { apply S1. exists r. cbn. split; [apply (mfind_nodup Nat.eqb nat_eqb_ok); auto; apply I; left; auto|].
        split; auto. exists x. rewrite E. split; [left; auto|auto]. }
      cbn [andb] in S2. inversion Nr as [|? ? N1 N2]; subst.
      destruct (IH m1) as (m' & P & Q1 & Q2); auto. { intros y Hy. apply I. right; auto. }
      exists m'. split; auto. split.
      + intros i q y k [H|H] Eq; [|eapply Q1; eauto]. inversion H; subst. rewrite Q2 by assumption. rewrite S2, Nat.eqb_refl.
        rewrite E in Eq. inversion Eq; subst. reflexivity.
      + intros i Hi. rewrite Q2 by (intro; apply Hi; right; auto). rewrite S2. destruct (Nat.eqb_spec id i); auto.
        exfalso. apply Hi. left; auto. }
  destruct (G b [] (fun x H => H) N) as (m & P & Q1 & Q2). exists m. split; auto.
Qed.
Print Assumptions manual_provider_default.

(** The right-of-way provider is a plain map. *)
Theorem manual_right_of_way_provider id s m :
  (snd (AddRowState id s m) = true <-> GetRowState m id = None) /\ (snd (SetRowState id s m) = true <-> GetRowState m id <> None) /\
  (forall i, GetRowState (fst (AddRowState id s m)) i = if snd (AddRowState id s m) && Nat.eqb id i then Some s else GetRowState m i) /\
  (forall i, GetRowState (fst (SetRowState id s m)) i = if snd (SetRowState id s m) && Nat.eqb id i then Some s else GetRowState m i).
Proof.
  unfold AddRowState, SetRowState, GetRowState.
  pose proof (memplace_spec Nat.eqb nat_eqb_ok id s m) as M.
  split; [|split; [|split]].
  - destruct (memplace Nat.eqb id s m); cbn [snd]; [tauto|]. destruct M as [v M]. split; [discriminate|congruence].
  - destruct (mhas Nat.eqb id m) eqn:H; cbn [snd].
    + apply mhas_true in H. destruct H as [v H]. split; congruence.
    + apply mhas_false in H. split; [discriminate|congruence].
  - intro i. destruct (memplace Nat.eqb id s m) as [m'|]; cbn [fst snd andb]; auto. destruct M as (_ & _ & M). rewrite M, Nat.eqb_sym. reflexivity.
  - intro i. destruct (mhas Nat.eqb id m) eqn:H; cbn [fst snd andb]; auto. destruct (Nat.eqb_spec id i) as [<-|D].
    + apply (mfind_set_eq Nat.eqb nat_eqb_ok).
    + apply (mfind_set_neq Nat.eqb nat_eqb_ok); auto.
Qed.
Print Assumptions manual_right_of_way_provider.

Definition sb : sbook dvalue :=
  [(4, mk_srule 0 [mk_lsrange 1 (mk_srange 0 5)] [mk_dvalue st0 [7]; mk_dvalue st0 [8]]);
   (6, mk_srule 0 [mk_lsrange 1 (mk_srange 3 9)] [mk_dvalue st2 [7]])].
Definition ch : list (set_call dvalue) :=
  [mk_call sb 4 (mk_dvalue st0 [7]) (Some (mk_dvalue st0 [8])) (Some 2%Q);
   mk_call sb 4 (mk_dvalue st0 [9]) None None;
   mk_call sb 4 (mk_dvalue st0 [8]) None (Some 2%Q);
   mk_call sb 6 (mk_dvalue st2 [7]) None None].
Example manual_provider_example :
  map snd (ctrace dvalue_eqb ch []) = [true; false; false; true] /\
  GetState (act_run (do_call dvalue_eqb) ch []) 4 = Some (mk_sresult (mk_dvalue st0 [7]) (Some (mk_dvalue st0 [8], Some 2%Q))) /\
  GetStateAt sb (act_run (do_call dvalue_eqb) ch []) 1 7 1 0 = Ok (Some (mk_sresult (mk_dvalue st2 [7]) None)) /\
  GetStateAt sb [] 1 7 1 0 = Throw /\ GetStateAt sb [] 2 7 1 0 = Ok None /\
  populate dvalue_eqb sb sb [] = Ok [(4, mk_sresult (mk_dvalue st0 [7]) None); (6, mk_sresult (mk_dvalue st2 [7]) None)].
Proof. repeat split. Qed.
